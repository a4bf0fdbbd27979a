(** * Model of coreax/benchmark_util.py *)
From Coq Require Import List ZArith Bool.
From Verif Require Import Num Jax DataModel MeanModel GreedyModel.
Import ListNotations.

Section BenchModel.
  Context {V : Type} (O : FOps V).
  (** benchmark_util.py:87-115 [calculate_delta]; [log] is [jnp.log].  [1 / n] on the last
      line is a Python division, which raises for [n = 0]. *)
  Definition calculate_delta (log : V -> V) (n : Z) : result V :=
    let log_n := log (fofZ O n) in
    if fgt0 O log_n then
      let log_log_n := log log_n in
      if fgt0 O log_log_n
      then Ok (fdiv O (f1 O) (fmul O (fofZ O n) log_log_n))
      else Ok (fdiv O (f1 O) (fmul O (fofZ O n) log_n))
    else if (n =? 0)%Z then Err ZeroDivisionError else Ok (fdiv O (f1 O) (fofZ O n)).
End BenchModel.

(** benchmark_util.py:50-85 [IterativeKernelHerding] inherits every field of KernelHerding
    and adds two; its [reduce] (65-84) calls [KernelHerding.reduce_iterative] with them.
    [fold_in key i] is [jr.fold_in]; [choice key i probs] is the draw of
    coresubset.py:345-348 with [random_key = key]; [t_schedule[i]] follows JAX indexing. *)
Section Iterative.
  Context {V : Type} (O : FOps V) {P Y K : Type} (p0 : P) (y0 : Y).
  Record iterative_herding := mkIter {
    it_size : nat; it_kernel : P -> P -> V; it_unique : bool; it_bs : bsarg;
    it_probabilistic : bool; it_temperature : V; it_key : K;
    it_iterations : nat; it_schedule : option (list V) }.
  Context (exp : V -> V) (fold_in : K -> nat -> K) (choice : K -> nat -> list V -> Z).
  (** the mode of the solver with the given temperature and key *)
  Definition mode_of (probabilistic : bool) (temperature : V) (key : K) : hmode :=
    if probabilistic then Prob exp temperature (choice key) else Greedy.
  (** coresubset.py:390-406 [refine_iteration]: new key, and new temperature if there is a schedule *)
  Definition iteration_mode (s : iterative_herding) (i : nat) : hmode :=
    mode_of (it_probabilistic s)
      (match it_schedule s with None => it_temperature s | Some t => jget (f0 O) t (Z.of_nat i) end)
      (fold_in (it_key s) i).
  Definition iterative_reduce (s : iterative_herding) (ords : nat -> nat -> list nat) (d : Data P Y V)
      (st : option (list V)) : result (Coresubset P Y V * list V) :=
    herding_reduce_iterative O p0 y0
      (mkHerding (it_size s) (it_kernel s) (it_unique s) (it_bs s) (mode_of (it_probabilistic s) (it_temperature s) (it_key s)))
      (iteration_mode s) ords d st (it_iterations s).
End Iterative.
Arguments mkIter {V P K}. Arguments it_size {V P K}. Arguments it_kernel {V P K}. Arguments it_unique {V P K}. Arguments it_bs {V P K}.
Arguments it_probabilistic {V P K}. Arguments it_temperature {V P K}. Arguments it_key {V P K}. Arguments it_iterations {V P K}. Arguments it_schedule {V P K}.
