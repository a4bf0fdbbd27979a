(** * Proofs for C76: the table of benchmark solvers *)
From Coq Require Import String List ZArith Reals Lra Lia Bool Permutation FunctionalExtensionality.
From Verif Require Import Num Jax RSum JaxFacts DataModel MeanModel MeanSpec UtilModel UtilSpec UtilProofs KernelModel KernelSpec KernelProofs KernelProofs4 KernelProofs7 KernelProofs8
  GreedySpec GreedyModel GreedyProofs4 CholModel CholSpec MapReduceModel MapReduceSpec MapReduceProofs3 KTModel KTSpec KTProofs2 KTProofs3 MetricSpec MetricProofs ScoreModel ThinModel ThinSpec ThinProofs BenchModel
  BenchSolvers BenchSpec BenchProofs BenchSized InvSpec InvProofs SqrtProofs PropUtil PropSqrt PropChol PropKT PropIter PropMapReduce.
Import ListNotations.
Open Scope R_scope.

Lemma wavg_map {P P'} (g : P -> P') (f : P' -> R) ys w : wavg f (map g ys) w = wavg (fun p => f (g p)) ys w.
Proof.
  unfold wavg, wsum. f_equal. f_equal. revert w. induction ys as [|a ys IH]; intros [|v w]; cbn; try reflexivity. now rewrite IH.
Qed.
Lemma wavg_ext {P} (f g : P -> R) ys w : (forall p, f p = g p) -> wavg f ys w = wavg g ys w.
Proof. intro H. unfold wavg, wsum. f_equal. f_equal. apply map_ext. intros [p v]. cbn. now rewrite H. Qed.
Lemma mmd2_pull {P P'} (g : P -> P') (k : P' -> P' -> R) xs w ys v :
  mmd2 k (map g xs) w (map g ys) v = mmd2 (fun a b => k (g a) (g b)) xs w ys v.
Proof.
  unfold mmd2. rewrite !wavg_map. f_equal; [f_equal|f_equal]; apply wavg_ext; intro; now rewrite wavg_map.
Qed.
Lemma mmd_to_rows_vec {dim} b (Xs : list (vec dim)) w l : (forall i, In i l -> (i < length Xs)%nat) ->
  mmd2 (kd dim b) Xs w (map (fun j => nth j Xs (vzero dim)) l) (repeat 1 (length l)) = mmd_to_rows (gaussian b) (map pv Xs) w l.
Proof.
  intro H. unfold mmd_to_rows, kd. rewrite <- (mmd2_pull pv (gaussian b)). f_equal. rewrite map_map. apply map_ext_in. intros i Hi.
  rewrite (nth_indep (map pv Xs) [] (pv (vzero dim))) by (rewrite map_length; auto). now rewrite map_nth.
Qed.

Section Setup.
  Context {Y K : Type} (y0 : Y).
  Variable jgrad : (list ER -> ER) -> list ER -> list ER.
  Variable keq : kern ER -> kern ER -> bool.
  Variable jac : (list ER -> list ER) -> list ER -> list (list ER).
  Variable kde_logpdf : list (list ER) -> list ER -> list (list ER) -> list ER.
  Variable E : externals ER K.
  Hypothesis EO : externals_ok E.
  Variable p0 : list ER.
  Notation rd X w := (@real_data Y X w).
  Variables (train : list (list R)) (wt : list R).

  Lemma sample_in : forall i, In i (x_numpy E (length train) (Nat.min (length train) 300)) -> (i < length train)%nat.
  Proof. apply (xo_numpy E EO). lia. Qed.
  Lemma sampled_length : length (sampled E train) = Nat.min (length train) 300.
  Proof. unfold sampled. rewrite map_length. apply (xo_numpy E EO). lia. Qed.
  Lemma sample_rows_fin : sample_rows EROps p0 y0 E (rd train wt) = map (map Fin) (sampled E train).
  Proof.
    unfold sample_rows, d_getitem. cbn [d_x real_data].
    assert (L : d_len (rd train wt) = length train) by (unfold d_len, real_data; cbn [d_x]; apply map_length).
    unfold sample_idx. rewrite L. unfold sampled. rewrite !map_map. unfold gather. rewrite map_map. apply map_ext_in. intros i Hi.
    apply sample_in in Hi. rewrite JaxFacts.jget_nat by (now rewrite map_length).
    rewrite (nth_indep _ p0 (map Fin [])) by (now rewrite map_length). now rewrite map_nth.
  Qed.
  Lemma bandwidth : (2 <= length train)%nat -> exists b, 0 <= b /\ is_median (pair_distances (sampled E train)) (2 * b ^ 2) /\
    median_heuristic EROps (sample_rows EROps p0 y0 E (rd train wt)) = Fin b.
  Proof.
    intro H. rewrite sample_rows_fin. destruct (C42_median_of_distances (sampled E train)) as (b & A & B & C).
    - rewrite sampled_length. lia.
    - exists b. auto.
  Qed.
  Notation init D := (initialise_solvers_at EROps ERT p0 y0 jgrad keq kde_logpdf E D).
  Notation table b D := (solver_table EROps ERT p0 y0 jgrad keq kde_logpdf E (KSE (Fin b : ER) (Fin 1))
    (lift (KSE (root_length b) (root_scale b 1 D)))).
  Lemma init_pos b D key g leaf : median_heuristic EROps (sample_rows EROps p0 y0 E (rd train wt)) = Fin b -> 0 < b ->
    init D (rd train wt) key g leaf = Ok (table b D (rd train wt) key g leaf).
  Proof.
    intros M Hb. unfold initialise_solvers_at, bench_kernel, bench_sqrt. rewrite M. change (f1 EROps) with (Fin 1 : ER).
    destruct (root_kernel b 1 D Hb ltac:(lra)) as (_ & _ & ->).
    assert (C : check_init EROps (KSE (Fin b : ER) (Fin 1)) = Ok (KSE (Fin b : ER) (Fin 1))).
    { unfold check_init, le0, fleb. cbn. rewrite !(proj2 (Rltb_true _ _)) by lra. reflexivity. }
    rewrite C. reflexivity.
  Qed.
  Lemma init_zero D key g leaf : median_heuristic EROps (sample_rows EROps p0 y0 E (rd train wt)) = Fin 0 ->
    init D (rd train wt) key g leaf = Err ValueError.
  Proof.
    intros M. unfold initialise_solvers_at, bench_kernel. rewrite M. unfold check_init, le0, fleb. cbn. rewrite (proj2 (Rltb_false 0 0)) by lra. reflexivity.
  Qed.
  Lemma init_inv D key g leaf t : (2 <= length train)%nat -> init D (rd train wt) key g leaf = Ok t ->
    exists b, 0 < b /\ is_median (pair_distances (sampled E train)) (2 * b ^ 2) /\ t = table b D (rd train wt) key g leaf /\
      median_heuristic EROps (sample_rows EROps p0 y0 E (rd train wt)) = Fin b.
  Proof.
    intros H I. destruct (bandwidth H) as (b & B0 & Md & M). destruct (Req_dec b 0) as [->|N].
    - rewrite init_zero in I by exact M. discriminate.
    - exists b. rewrite (init_pos b) in I by (auto; lra). injection I as <-. split; [lra|auto].
  Qed.
  Lemma delta_ok : (1 <= length train)%nat -> exists dl, calculate_delta EROps (x_log E) (Z.of_nat (d_len (rd train wt))) = Ok dl.
  Proof.
    intro H. assert (L : d_len (rd train wt) = length train) by (unfold d_len, real_data; cbn [d_x]; apply map_length).
    rewrite L. unfold calculate_delta. destruct (fgt0 _ _); [destruct (fgt0 _ _); eauto|].
    destruct (Z.eqb_spec (Z.of_nat (length train)) 0); [lia|eauto].
  Qed.
End Setup.

Definition cubic_R : list R := map (fun i => 1 / ((10 + INR i * 10) * ((10 + INR i * 10) * (10 + INR i * 10)))) (seq 0 10).
Lemma cubic_fin : cubic_schedule EROps = map Fin cubic_R.
Proof.
  unfold cubic_schedule, cubic_R. rewrite map_map. apply map_ext. intro i. cbv zeta.
  change (fofZ EROps 10) with (Fin 10 : ER). change (fofZ EROps 90) with (Fin 90 : ER). change (fofZ EROps 9) with (Fin 9 : ER).
  change (fofZ EROps (Z.of_nat i)) with (Fin (IZR (Z.of_nat i)) : ER). change (f1 EROps) with (Fin 1 : ER).
  rewrite fdiv_fin by lra. rewrite <- INR_IZR_INZ. assert (0 <= INR i) by apply pos_INR.
  change (fadd EROps (Fin 10) (fmul EROps (Fin (INR i)) (Fin (90 / 9)))) with (Fin (10 + INR i * (90 / 9)) : ER).
  change (fmul EROps (Fin ?a) (fmul EROps (Fin ?a) (Fin ?a))) with (Fin (a * (a * a)) : ER).
  replace (90 / 9) with 10 by field. rewrite fdiv_fin; [reflexivity|].
  assert (P : 0 < 10 + INR i * 10) by lra. apply Rgt_not_eq. repeat apply Rmult_lt_0_compat; exact P.
Qed.
Lemma cubic_pos x : In x cubic_R -> 0 < x.
Proof.
  unfold cubic_R. intro H. apply in_map_iff in H as (i & <- & _). assert (0 <= INR i) by apply pos_INR.
  assert (P : 0 < 10 + INR i * 10) by lra. apply Rdiv_lt_0_compat; [lra|]. repeat apply Rmult_lt_0_compat; exact P.
Qed.
Lemma milli_fin : milli EROps = Fin (1 / 1000).
Proof. unfold milli. change (fofZ EROps 1000) with (Fin 1000 : ER). change (f1 EROps) with (Fin 1 : ER). now rewrite fdiv_fin by lra. Qed.
