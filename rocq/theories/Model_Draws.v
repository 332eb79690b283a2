(** Where random keys go during a run: gwkanal/core/guru.py, core/sage.py, core/monk.py, core/flowMC_based.py,
    core/numpyro_based.py and the sampling of a ScaledMixture, gwkokab/models/utils/_scaledmixture.py.

    Keys are those of Model_Key. The record of a run is the list of keys handed to code that draws random
    numbers, with what they are handed to, in the order of the calls. *)
From Coq Require Import String List ZArith Arith Bool.
From Verif Require Import Model_X Model_Key Model_Likelihood Model_FlowMC.
Import ListNotations.
Open Scope nat_scope.

(** ** Guru (core/guru.py) *)
(** arguments of set_rng_key: a key or something else, an integer or something else. Python's booleans, which
    count as integers, are not distinguished from them. *)
Inductive key_arg := AKey (k : rng) | ANotKey.
Inductive seed_arg := AInt (z : Z) | ANotInt.
(** the attributes _rng_key and seed; None before they are assigned *)
Record guru := Guru { g_key : option rng; g_seed : option (option Z) }.
Definition new_guru : guru := Guru None None.

(** Guru.set_rng_key, core/guru.py:235-261; [None] is an exception. A seed given together with a key is stored
    without being looked at; only integers are modelled there. *)
Definition set_rng_key (g : guru) (key : option key_arg) (seed : option seed_arg) : option guru :=
  let stored := match seed with Some (AInt z) => Some z | _ => None end in
  match key, seed with
  | None, None => None
  | Some (AKey k), _ => Some (Guru (Some k) (Some stored))
  | Some ANotKey, _ => None
  | None, Some ANotInt => None
  | None, Some (AInt z) => if (z <? 0)%Z then None else Some (Guru (Some (Seed z)) (Some stored))
  end.

(** reading the property Guru.rng_key, core/guru.py:230-233; an unset key is an AttributeError *)
Definition read_key (g : guru) : option (rng * guru) :=
  match g_key g with
  | None => None
  | Some k => let (k', subkey) := split2 k in Some (subkey, Guru (Some k') (g_seed g))
  end.
(** [n] reads in a row *)
Fixpoint read_keys (n : nat) (g : guru) : option (list rng * guru) :=
  match n with
  | 0 => Some ([], g)
  | S n => match read_key g with
           | None => None
           | Some (k, g) => match read_keys n g with
                            | None => None
                            | Some (ks, g) => Some (k :: ks, g)
                            end
           end
  end.

(** ** What keys are handed to *)
Inductive purpose :=
  | PoissonMean   (* the estimator of the expected number of detections *)
  | Likelihood    (* the Monte-Carlo integrals of the analytical likelihood *)
  | Positions     (* the initial positions of the chains *)
  | Network       (* the initial weights of the normalising flow *)
  | Sampling.     (* the samplers *)
Definition record := list (purpose * rng).

(** Local_Global_Sampler_Bundle.__init__, core/flowMC_based.py:288-296: the key is split once *)
Definition bundle_keys (rng_key : rng) : record :=
  let (rng_key, subkey) := split2 rng_key in [(Network, subkey)].

Section Strategies.
(** what a strategy of the flowMC library does with its key: the key it returns, and the keys it draws with *)
Variable strategy : string -> rng -> rng * list rng.
(** the loops of Sampler.sample, core/flowMC_based.py:596-644, over the strategies in the order in which they are
    run: each is given the key returned by the one before *)
Fixpoint strategy_keys (order : list string) (rng_key : rng) : list rng :=
  match order with
  | [] => []
  | s :: order => let (rng_key, used) := strategy s rng_key in used ++ strategy_keys order rng_key
  end.

(** FlowMCBased.driver, core/flowMC_based.py:805-1013, as far as keys are concerned: initial positions (line 907),
    bundle (line 936), sampler (line 968). [accepted]: the settings raise no error (Model_Settings). *)
Definition flowmc_driver (accepted : bool) (n_training_loops n_production_loops : nat) (g : guru)
  : option (guru * record) :=
  if negb accepted then None
  else match read_key g with
       | None => None
       | Some (k_initial, g) =>
       match read_key g with
       | None => None
       | Some (k_bundle, g) =>
       match read_key g with
       | None => None
       | Some (k_sampler, g) =>
         match sample_schedule bundle_strategies (bundle_order n_training_loops n_production_loops) with
         | None => None
         | Some sch =>
             Some (g, (Positions, k_initial) :: bundle_keys k_bundle
                      ++ map (fun k => (Sampling, k)) (strategy_keys (executed sch) k_sampler))%list
         end
       end end end.
End Strategies.

(** ** _run_mcmc, core/numpyro_based.py:58-99: calls of mcmc.run as (key, number of chains, first chain) *)
Definition call := (rng * nat * nat)%type.
Definition batch_call (key : rng) (num_chains chain_idx : nat) : rng * call :=
  let (key, subkey) := split2 key in (key, (subkey, num_chains, chain_idx)).
Fixpoint batch_calls (n_batches batch_size : nat) (key : rng) (chain_idx : nat) : rng * nat * list call :=
  match n_batches with
  | 0 => (key, chain_idx, [])
  | S k => let (key, c) := batch_call key batch_size chain_idx in
           let '(key, idx, cs) := batch_calls k batch_size key (chain_idx + batch_size) in (key, idx, c :: cs)
  end.
Definition mcmc_calls (n_devices : nat) (chain_method : option string) (num_chains : option nat) (key : rng)
  : option (list call) :=
  match chain_method with
  | None => None
  | Some cm =>
      let cm := if negb (String.eqb cm "parallel") && (1 <? n_devices) then "parallel"%string else cm in
      let n := match num_chains with Some n => n | None => 1 end in
      let batch_size := if String.eqb cm "vectorized" then n else Nat.min n n_devices in
      if batch_size =? 0 then None
      else
        let n_batches := n / batch_size in
        let '(key, chain_idx, calls) := batch_calls n_batches batch_size key 0 in
        let remaining := n - n_batches * batch_size in
        if 0 <? remaining then Some (calls ++ [snd (batch_call key remaining chain_idx)])%list else Some calls
  end.
(** NumpyroBased.driver, core/numpyro_based.py:105-156: whichever of the four branches is taken, the key is read
    once *)
Definition numpyro_driver (n_devices : nat) (chain_method : option string) (num_chains : option nat) (g : guru)
  : option (guru * record) :=
  match read_key g with
  | None => None
  | Some (k, g) =>
      match mcmc_calls n_devices chain_method num_chains k with
      | None => None
      | Some calls => Some (g, map (fun c => (Sampling, fst (fst c))) calls)
      end
  end.

(** ** Sage and Monk *)
(** Sage.__init__ and Sage.run, core/sage.py:72 and 158-207: the seed is set, the estimator gets a key, then the
    driver runs. Monk.run, core/monk.py:147-196, gives one more key to the likelihood. The data and the settings are
    supposed to be readable. *)
Definition driver := guru -> option (guru * record).
Definition sage_run (d : driver) (g : guru) : option (guru * record) :=
  match read_key g with
  | None => None
  | Some (k_pmean, g) =>
      match d g with None => None | Some (g, uses) => Some (g, (PoissonMean, k_pmean) :: uses) end
  end.
Definition monk_run (d : driver) (g : guru) : option (guru * record) :=
  match read_key g with
  | None => None
  | Some (k_pmean, g) =>
      match read_key g with
      | None => None
      | Some (k_likelihood, g) =>
          match d g with
          | None => None
          | Some (g, uses) => Some (g, (PoissonMean, k_pmean) :: (Likelihood, k_likelihood) :: uses)
          end
      end
  end.
Definition analysis (run : guru -> option (guru * record)) (seed : seed_arg) : option record :=
  match set_rng_key new_guru None (Some seed) with
  | None => None
  | Some g => option_map snd (run g)
  end.

(** ** ScaledMixture (gwkokab/models/utils/_scaledmixture.py), with sample_shape = () *)
Section MixtureSample.
(** the samplers of the components and the categorical draw of a component *)
Variable draws : list (rng -> list X).
Variable categorical : rng -> nat.
(** component_sample, lines 144-149 *)
Definition component_sample (key : rng) : list (list X) :=
  map2 (fun d k => d k) draws (split_n key (length draws)).
(** sample_with_intermediates, lines 203-231; jnp.take_along_axis clamps the index *)
Definition sample_with_intermediates (key : rng) : list X * nat :=
  let (key_comp, key_ind) := split2 key in
  let samples := component_sample key_comp in
  let index := categorical key_ind in
  (nth (Nat.min index (length samples - 1)) samples [], index).
End MixtureSample.

(** ** truncated_normal_error, gwkokab/errors.py:158 and 177: the keys drawn with when [rounds] rounds of
    replacement are needed *)
Fixpoint redraw_keys (rounds : nat) (key : rng) : list rng :=
  match rounds with 0 => [] | S r => let key := fst (split2 key) in key :: redraw_keys r key end.
Definition truncated_keys (rounds : nat) (key : rng) : list rng := key :: redraw_keys rounds key.
(** PopulationFactory._generate_population, core/population.py:163 and 187-199: the keys handed to the model and to
    the choice of the detected events *)
Definition population_draw_keys (key : rng) : rng * rng := (key, snd (split2 (snd (split2 key)))).
