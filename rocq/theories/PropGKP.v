(** * Properties of greedy kernel points *)
From Coq Require Import List ZArith Bool Reals QArith Permutation Lia Lra.
From Verif Require Import Num Jax RSum JaxFacts DataModel GreedyModel UtilModel GKPModel MetricSpec GKPSpec
  MapReduceProofs3 GreedyProofs MetricProofs MetricProofs2 GKPProofs GKPProofs2 GKPProofs3 GKPProofs4 GKPProofs5 GKPProofs6.
Import ListNotations.
Open Scope nat_scope.

(** a solver object with a real-valued kernel [k], finite regularisation [reg], a
    least-squares solver returning the finite values of [solveR], lawful random
    primitives and non-negative batch sizes *)
Record usable {P K} (s : gkp (V := ER) (P := P) (K := K)) (k : P -> P -> R) (reg : R)
    (solveR : list (list R) -> R -> list R -> list (list R) -> list R) : Prop := mkUsable {
  us_kernel : gk_kernel s = fun a b => Fin (k a b);
  us_reg : gk_reg s = Fin reg;
  us_solve : finite_solver (gk_solve s) solveR;
  us_split : split_ok (gk_split s);
  us_perm : permutation_ok (gk_permutation s);
  us_cand : batch_arg_ok (gk_candidates s);
  us_loss : batch_arg_ok (gk_loss s) }.
(** data with one response per point *)
Notation supervised x w y := (mkData x w (Some (map (@Fin R) y))).
(** effective number of candidates sampled in each step *)
Definition effective_batch (b : option Z) (n : nat) : nat := match b with None => n | Some z => Nat.min n (Z.to_nat z) end.

Lemma effective_ok b n : batch_arg_ok b -> batch_size b n = Z.of_nat (effective_batch b n).
Proof. intros H. unfold batch_size, effective_batch. destruct b as [z|]; [|reflexivity]. simpl in H. destruct (Z.ltb_spec (Z.of_nat n) z); lia. Qed.

Lemma in_firstn_In {A} q (l : list A) a : In a (firstn q l) -> In a l.
Proof. intros H. rewrite <- (firstn_skipn q l). apply in_app_iff. now left. Qed.

(** ** C25 *)
(** With [unique] and at least as many sampled candidates as coreset places, [reduce]
    returns distinct in-range indices.  Missing for the full property: smaller
    candidate batches, where it is false (C25_small_batch_refuted). *)
Theorem C25_reduce_unique_partial {P K} (p0 : P) (s : gkp (V := ER) (P := P) (K := K)) k reg solveR x w y :
  usable s k reg solveR -> length y = length x -> 0 < length x -> gk_size s <= length x ->
  gk_unique s = true -> gk_size s <= effective_batch (gk_candidates s) (length x) ->
  exists res g, gkp_reduce EROps p0 s (supervised x w y) None = Ok (mkCS res (repeat (Fin 1%R) (gk_size s)) (supervised x w y), g) /\
    length res = gk_size s /\ NoDup res /\ Forall (in_range (length x)) res.
Proof.
  intros U Hy Hn Hm Hu Hb. unfold gkp_reduce. rewrite (initial_ok EROps) by exact Hm. cbn [bind].
  assert (EI : initial_indices (gk_size s) (repeat (-1)%Z (gk_size s)) = repeat (-1)%Z (gk_size s)).
  { unfold initial_indices. rewrite repeat_length, Nat.ltb_irrefl, firstn_all2; [reflexivity|now rewrite repeat_length]. }
  destruct (distinct_results p0 s k reg solveR x w y (repeat (-1)%Z (gk_size s)) (repeat (f0 EROps) (gk_size s)) Hy
     (us_kernel _ _ _ _ U) (us_reg _ _ _ _ U) (us_solve _ _ _ _ U) (us_split _ _ _ _ U) (us_perm _ _ _ _ U) (us_cand _ _ _ _ U) (us_loss _ _ _ _ U) Hm Hn Hu)
    as [res [E [L [N R]]]].
  - rewrite EI. split.
    + assert (O : occupied (repeat (-1)%Z (gk_size s)) = []) by (generalize (gk_size s); intros q; induction q; simpl; auto). rewrite O. constructor.
    + intros i Hi. apply repeat_spec in Hi. now right.
  - right. rewrite effective_ok by apply U. lia.
  - exists res. eexists. split; [exact E|]. auto.
Qed.
Print Assumptions C25_reduce_unique_partial.

(** [refine] with [unique], starting from distinct in-range indices which either fill
    the coreset or are completed from large enough candidate batches *)
Theorem C25_refine_unique_partial {P K} (p0 : P) (s : gkp (V := ER) (P := P) (K := K)) k reg solveR x w y idx cw :
  usable s k reg solveR -> length y = length x -> 0 < length x -> gk_size s <= length x ->
  gk_unique s = true -> NoDup idx -> Forall (in_range (length x)) idx ->
  gk_size s <= length idx \/ gk_size s <= effective_batch (gk_candidates s) (length x) ->
  exists res g, gkp_refine EROps p0 s (mkCS idx cw (supervised x w y)) None = Ok (mkCS res (repeat (Fin 1%R) (gk_size s)) (supervised x w y), g) /\
    length res = gk_size s /\ NoDup res /\ Forall (in_range (length x)) res.
Proof.
  intros U Hy Hn Hm Hu ND R Big. rewrite Forall_forall in R.
  assert (OC : occupied idx = idx).
  { unfold occupied. clear -R. induction idx as [|a l IH]; simpl; auto. rewrite IH by (intros; apply R; now right).
    specialize (R a (or_introl eq_refl)). unfold in_range in R. destruct (Z.eqb_spec a (-1)); [lia|reflexivity]. }
  destruct (distinct_results p0 s k reg solveR x w y idx cw Hy
     (us_kernel _ _ _ _ U) (us_reg _ _ _ _ U) (us_solve _ _ _ _ U) (us_split _ _ _ _ U) (us_perm _ _ _ _ U) (us_cand _ _ _ _ U) (us_loss _ _ _ _ U) Hm Hn Hu)
    as [res [E [L [N Q]]]].
  - unfold initial_indices. destruct (Nat.ltb_spec (length idx) (gk_size s)).
    + split.
      * rewrite occupied_app, OC. assert (O : forall q, occupied (repeat (-1)%Z q) = []) by (induction q; simpl; auto). now rewrite O, app_nil_r.
      * intros i Hi. apply in_app_iff in Hi as [Hi|Hi]; [left; auto|right; now apply repeat_spec in Hi].
    + split.
      * apply NoDup_filter. rewrite <- (firstn_skipn (gk_size s) idx) in ND. clear -ND. induction (firstn (gk_size s) idx); [constructor|].
        simpl in ND. inversion ND; subst. constructor; auto. intros I. apply H1, in_app_iff. now left.
      * intros i Hi. left. apply R. rewrite <- (firstn_skipn (gk_size s) idx). apply in_app_iff. now left.
  - destruct Big as [Big|Big]; [left|right; rewrite effective_ok by apply U; lia].
    intros t Ht. unfold initial_indices. destruct (Nat.ltb_spec (length idx) (gk_size s)); [lia|]. intros E.
    assert (I : in_range (length x) (nth t (firstn (gk_size s) idx) 0%Z)).
    { apply R, (in_firstn_In (gk_size s)), nth_In. rewrite firstn_length. lia. }
    rewrite E in I. unfold in_range in I. lia.
  - exists res. eexists. split; [exact E|]. auto.
Qed.
Print Assumptions C25_refine_unique_partial.

(** With the full candidate set, [reduce] returns in-range indices, whatever [unique].
    Missing: smaller candidate batches (C25_empty_place_refuted). *)
Theorem C25_reduce_in_range_partial {P K} (p0 : P) (s : gkp (V := ER) (P := P) (K := K)) k reg solveR x w y :
  usable s k reg solveR -> length y = length x -> 0 < length x -> gk_size s <= length x ->
  effective_batch (gk_candidates s) (length x) = length x ->
  exists res g, gkp_reduce EROps p0 s (supervised x w y) None = Ok (mkCS res (repeat (Fin 1%R) (gk_size s)) (supervised x w y), g) /\
    length res = gk_size s /\ Forall (in_range (length x)) res.
Proof.
  intros U Hy Hn Hm Hb. unfold gkp_reduce. rewrite (initial_ok EROps) by exact Hm. cbn [bind].
  assert (EI : initial_indices (gk_size s) (repeat (-1)%Z (gk_size s)) = repeat (-1)%Z (gk_size s)).
  { unfold initial_indices. rewrite repeat_length, Nat.ltb_irrefl, firstn_all2; [reflexivity|now rewrite repeat_length]. }
  destruct (in_range_results p0 s k reg solveR x w y (repeat (-1)%Z (gk_size s)) (repeat (f0 EROps) (gk_size s)) Hy
     (us_kernel _ _ _ _ U) (us_reg _ _ _ _ U) (us_solve _ _ _ _ U) (us_split _ _ _ _ U) (us_perm _ _ _ _ U) (us_cand _ _ _ _ U) (us_loss _ _ _ _ U) Hm Hn)
    as [res [E [L R]]].
  - rewrite EI. apply Forall_forall. intros i Hi. apply repeat_spec in Hi. now right.
  - right. rewrite effective_ok by apply U. lia.
  - exists res. eexists. split; [exact E|]. auto.
Qed.
Print Assumptions C25_reduce_in_range_partial.

(** A coreset larger than the data is rejected. *)
Theorem C04_gkp_size {V P K} (O : FOps V) (p0 : P) (s : gkp (V := V) (P := P) (K := K)) (d : Data P V V) st :
  d_len d < gk_size s -> gkp_reduce O p0 s d st = Err ValueError.
Proof.
  intros H. unfold gkp_reduce, initial_coresubset, cs_init, points, d_getitem, d_len in *. cbn [d_x c_idx c_pre].
  rewrite gather_length, repeat_length. destruct (Nat.ltb_spec (length (d_x d)) (gk_size s)); [reflexivity|lia].
Qed.
Print Assumptions C04_gkp_size.

(** Two points, coreset size two, one candidate per step: whenever the random
    permutations put index 0 first, the result is not two distinct valid indices, for
    every kernel, response vector, regularisation and exact least-squares solver. *)
Theorem C25_small_batch_refuted {P K} (p0 : P) (s : gkp (V := ER) (P := P) (K := K)) k reg solveR (a b : P) w (y1 y2 : R) :
  usable s k reg solveR -> gk_size s = 2 -> gk_unique s = true -> gk_candidates s = Some 1%Z ->
  (forall key, gk_permutation s key 2 = [0; 1]) ->
  exists res g, gkp_reduce EROps p0 s (supervised [a; b] w [y1; y2]) None = Ok (mkCS res (repeat (Fin 1%R) 2) (supervised [a; b] w [y1; y2]), g) /\
    ~ (NoDup res /\ Forall (in_range 2) res).
Proof.
  intros U Hs Hu Hc Hp. unfold gkp_reduce. rewrite (initial_ok EROps) by (cbn; lia). cbn [bind]. rewrite Hs.
  assert (V : Forall (valid 2) (initial_indices (gk_size s) (repeat (-1)%Z 2))).
  { rewrite Hs. repeat constructor; now right. }
  destruct (gkp_run p0 s k reg solveR [a; b] w [y1; y2] (repeat (-1)%Z 2) (repeat (f0 EROps) 2) eq_refl
     (us_kernel _ _ _ _ U) (us_reg _ _ _ _ U) (us_solve _ _ _ _ U) (us_split _ _ _ _ U) (us_perm _ _ _ _ U) (us_cand _ _ _ _ U) (us_loss _ _ _ _ U)
     ltac:(cbn; lia) ltac:(cbn; lia) V) as [su [res [ES [SS [RL [E [VR TR]]]]]]].
  exists res. eexists. split; [rewrite E, Hs; reflexivity|]. intros [ND IR].
  assert (CB : forall t, t < 2 -> forall z, In z (nth t (su_cand su) []) -> z = 0%Z \/ z = (-1)%Z).
  { intros t Ht z Hz. unfold setup_batch_solver in ES. rewrite Hc, Hs in ES.
    set (r2 := sample_batch_indices _ _ (nth 1 _ _) _ _ _) in ES. unfold sample_batch_indices in ES. clearbody r2. cbn in ES.
    destruct r2 as [r2|]; cbn in ES; [|discriminate]. injection ES as <-. cbn in Hz.
    pose proof (us_split _ _ _ _ U (nth 0 (gk_split s (gk_key s) 2) (gk_key s)) 2) as L2.
    destruct (gk_split s (nth 0 (gk_split s (gk_key s) 2) (gk_key s)) 2) as [|k1 [|k2 [|]]]; try discriminate L2.
    cbn in Hz. change (Pos.to_nat 2) with 2 in Hz. change (Pos.to_nat 1) with 1 in Hz. rewrite !Hp in Hz. cbn in Hz.
    destruct t as [|[|t]]; cbn in Hz; intuition lia. }
  rewrite Hs in RL, TR. destruct res as [|i [|j [|]]]; try discriminate RL.
  destruct (TR 0 ltac:(lia)) as [T0 _]. destruct (TR 1 ltac:(lia)) as [T1 _]. cbn [nth] in T0, T1.
  apply CB in T0; [|lia]. apply CB in T1; [|lia]. inversion IR as [|? ? I1 IR']; subst. inversion IR' as [|? ? I2 _]; subst. unfold in_range in I1, I2.
  assert (i = j) by lia. subst. inversion ND; subst. apply H1. now left.
Qed.
Print Assumptions C25_small_batch_refuted.

(** Without [unique], the empty-place marker -1 can be returned as an index: constant
    kernel, two points with opposite responses, one candidate per step, and the exact
    solution b / (a + r) of the one-by-one system. *)
Definition one_by_one (A : list (list EQ)) (r : EQ) (b : list EQ) (I : list (list EQ)) : list EQ :=
  match A, b, I with
  | [[a]], [t], [[e]] => [fdiv EQOps t (fadd EQOps a (fmul EQOps r e))]
  | _, _, _ => []
  end.
Theorem C25_empty_place_refuted :
  let s := mkGKP 1 (fun _ _ : unit => Fin (1%Q)) (Fin 1%Q) false (Some 1%Z) None one_by_one (fun (k : unit) n => repeat k n) (fun _ n => seq 0 n) tt in
  let d := mkData [tt; tt] [Fin 1%Q; Fin 1%Q] (Some [Fin 1%Q; Fin (-1)%Q]) in
  exists g, gkp_reduce EQOps tt s d None = Ok (mkCS [(-1)%Z] [Fin 1%Q] d, g).
Proof. eexists. vm_compute. reflexivity. Qed.
Print Assumptions C25_empty_place_refuted.

(** ** C26 *)
(** In step [t], with [res] the returned indices: the index chosen lies in that step's
    candidate batch, and no admissible candidate gives a smaller squared prediction error
    on that step's loss batch.  Errors are those of the regularised least-squares fit on
    the occupied places only: empty places have no influence. *)
Theorem C26_best_candidate {P K} (p0 : P) (s : gkp (V := ER) (P := P) (K := K)) k reg solveR x w y idx cw :
  usable s k reg solveR -> least_squares_ok (gk_size s) solveR -> (forall a b, k a b = k b a) ->
  length y = length x -> 0 < length x -> gk_size s <= length x ->
  (forall i, In i idx -> in_range (length x) i \/ i = (-1)%Z) ->
  let n := length x in
  let m := gk_size s in
  let start := firstn m (idx ++ repeat (-1)%Z (m - length idx)) in
  exists res g candidates losses,
    gkp_refine EROps p0 s (mkCS idx cw (supervised x w y)) None = Ok (mkCS res (repeat (Fin 1%R) m) (supervised x w y), g) /\
    length res = m /\
    forall t, t < m ->
      let e := effective_batch (gk_candidates s) n in
      (exists batch, candidates t = map Z.of_nat batch ++ (if e <? n then [nth t start 0%Z] else []) /\
         length batch = e /\ NoDup batch /\ (forall i, In i batch -> i < n)) /\
      (exists batch, losses t = map Z.of_nat batch /\ NoDup batch /\ (forall i, In i batch -> i < n) /\
         (effective_batch (gk_loss s) n = n -> Permutation batch (seq 0 n))) /\
      In (nth t res 0%Z) (candidates t) /\
      let with_ b := firstn t res ++ b :: skipn (S t) start in
      let admissible b := gk_unique s = true -> ~ In b (firstn t res ++ -1 :: skipn (S t) start)%Z in
      forall b, In b (candidates t) -> admissible b ->
        admissible (nth t res 0%Z) /\
        (exists a, fitted p0 k x y reg (active (with_ (nth t res 0%Z))) a) /\
        (exists a, fitted p0 k x y reg (active (with_ b)) a) /\
        forall a a', fitted p0 k x y reg (active (with_ (nth t res 0%Z))) a -> fitted p0 k x y reg (active (with_ b)) a' ->
          (squared_error p0 k x y (active (with_ (nth t res 0%Z))) a (losses t)
           <= squared_error p0 k x y (active (with_ b)) a' (losses t))%R.
Proof.
  intros U LS Sy Hy Hn Hm Hv n m start.
  assert (EI : initial_indices m idx = start).
  { unfold initial_indices, start. destruct (Nat.ltb_spec (length idx) m).
    - symmetry. apply firstn_all2. rewrite app_length, repeat_length. lia.
    - replace (m - length idx) with 0 by lia. now rewrite app_nil_r. }
  assert (V : Forall (valid n) (initial_indices m idx)).
  { rewrite EI. unfold start. apply Forall_forall. intros i Hi.
    assert (I : In i (idx ++ repeat (-1)%Z (m - length idx))) by (rewrite <- (firstn_skipn m (idx ++ _)); apply in_app_iff; now left).
    apply in_app_iff in I as [I|I]; [now apply Hv|right; now apply repeat_spec in I]. }
  destruct (best_candidate p0 s k reg solveR x w y idx cw Hy (us_kernel _ _ _ _ U) (us_reg _ _ _ _ U) (us_solve _ _ _ _ U)
     (us_split _ _ _ _ U) (us_perm _ _ _ _ U) (us_cand _ _ _ _ U) (us_loss _ _ _ _ U) Hm Hn LS Sy V) as [res [cand [losses [E [L T]]]]].
  exists res. eexists. exists cand, losses. split; [exact E|]. split; [exact L|]. intros t Ht e. destruct (T t Ht) as [T1 [T2 [T3 T4]]].
  fold m n in T1, T4. rewrite EI in T1, T4.
  rewrite (effective_ok _ _ (us_cand _ _ _ _ U)) in T1. rewrite (effective_ok _ _ (us_loss _ _ _ _ U)) in T2.
  split; [|split; [|split; [exact T3|exact T4]]].
  - destruct T1 as [b [A [B C]]]. exists b. rewrite A. split; [|split; [rewrite B; fold n; fold e; lia|exact C]].
    f_equal. fold n; fold e. destruct (Nat.ltb_spec e n), (Z.ltb_spec (Z.of_nat e) (Z.of_nat n)); auto; lia.
  - destruct T2 as [b [A [B [C D]]]]. exists b. split; [exact A|]. split; [exact B|]. split; [exact C|]. intros Q. apply D. fold n. now rewrite Q.
Qed.
Print Assumptions C26_best_candidate.

(** for a positive semi-definite kernel and non-zero regularisation, the fit is the
    unique solution of the kernel ridge regression equations *)
Theorem C26_fit_is_ridge_regression {P} (p0 : P) k x y reg c a : psd k -> reg <> 0%R -> Forall (fun i => 0 <= i)%Z c ->
  (fitted p0 k x y reg c a <-> ridge_equations p0 k x y reg c a) /\ (forall a', fitted p0 k x y reg c a -> fitted p0 k x y reg c a' -> a = a').
Proof. intros Hp Hr Hc. split; [now apply fitted_ridge|]. intros a'. apply min_norm_unique. Qed.
Print Assumptions C26_fit_is_ridge_regression.

(** refining a full-size coreset, with the whole data set as loss batch, never increases
    the squared prediction error *)
Theorem C26_refine_never_worse {P K} (p0 : P) (s : gkp (V := ER) (P := P) (K := K)) k reg solveR x w y idx cw :
  usable s k reg solveR -> least_squares_ok (gk_size s) solveR -> (forall a b, k a b = k b a) ->
  length y = length x -> 0 < length x -> length idx = gk_size s -> length idx <= length x ->
  Forall (in_range (length x)) idx -> (gk_unique s = true -> NoDup idx) ->
  effective_batch (gk_loss s) (length x) = length x ->
  exists res g, gkp_refine EROps p0 s (mkCS idx cw (supervised x w y)) None = Ok (mkCS res (repeat (Fin 1%R) (gk_size s)) (supervised x w y), g) /\
    length res = gk_size s /\ Forall (in_range (length x)) res /\
    (exists a, fitted p0 k x y reg idx a) /\ (exists a, fitted p0 k x y reg res a) /\
    forall a a', fitted p0 k x y reg idx a -> fitted p0 k x y reg res a' ->
      (squared_error p0 k x y res a' (map Z.of_nat (seq 0 (length x)))
       <= squared_error p0 k x y idx a (map Z.of_nat (seq 0 (length x))))%R.
Proof.
  intros U LS Sy Hy Hn Hi Hm R ND FL.
  assert (EF : firstn (gk_size s) idx = idx) by (apply firstn_all2; lia).
  destruct (never_worse p0 s k reg solveR x w y idx cw Hy (us_kernel _ _ _ _ U) (us_reg _ _ _ _ U) (us_solve _ _ _ _ U)
     (us_split _ _ _ _ U) (us_perm _ _ _ _ U) (us_cand _ _ _ _ U) (us_loss _ _ _ _ U) ltac:(lia) Hn LS Sy) as [res [E [L [IR [F1 [F2 LE]]]]]];
    rewrite ?EF; auto; try lia.
  - rewrite effective_ok by apply U. now rewrite FL.
  - rewrite EF in F1, LE. exists res. eexists. split; [exact E|]. auto.
Qed.
Print Assumptions C26_refine_never_worse.

(** ** C21: the returned state can be passed to any later call on the same data *)
Theorem C21_gkp_state {V P K} (O : FOps V) (p0 : P) (s : gkp (V := V) (P := P) (K := K)) (c c2 : Coresubset P V V) d c' g :
  gkp_refine O p0 s c None = Ok (c', g) \/ gkp_reduce O p0 s (c_pre c) None = Ok (c', g) ->
  c_pre c2 = c_pre c -> d = c_pre c ->
  gkp_refine O p0 s c2 (Some g) = gkp_refine O p0 s c2 None /\ gkp_reduce O p0 s d (Some g) = gkp_reduce O p0 s d None.
Proof.
  intros H E ->.
  assert (G : g = padded_gramian O (gk_kernel s) (d_x (c_pre c))).
  { assert (R : forall c0 cc, gkp_refine O p0 s c0 None = Ok (cc, g) -> g = padded_gramian O (gk_kernel s) (d_x (c_pre c0))).
    { intros c0 cc. unfold gkp_refine. destruct (setup_batch_solver _ _ _ _); cbn [bind]; [|discriminate]. destruct (d_y _); [|discriminate].
      destruct (cs_build _ _ _ _ _); cbn [bind]; [|discriminate]. intros Q. now injection Q. }
    destruct H as [H|H]; [now apply R in H|]. unfold gkp_reduce in H.
    destruct (initial_coresubset O p0 (f0 O) (-1) (gk_size s) (c_pre c)) as [ci|] eqn:EI; cbn [bind] in H; [|discriminate].
    apply R in H. rewrite H. f_equal. f_equal. unfold initial_coresubset, cs_init in EI. destruct (_ <? _) in EI; [discriminate|]. now injection EI as <-. }
  assert (RR : forall c0, c_pre c0 = c_pre c -> gkp_refine O p0 s c0 (Some g) = gkp_refine O p0 s c0 None).
  { intros c0 E0. unfold gkp_refine. now rewrite G, E0. }
  split; [now apply RR|]. unfold gkp_reduce.
  destruct (initial_coresubset O p0 (f0 O) (-1) (gk_size s) (c_pre c)) as [ci|] eqn:EI; cbn [bind]; [|reflexivity].
  apply RR. unfold initial_coresubset, cs_init in EI. destruct (_ <? _) in EI; [discriminate|]. now injection EI as <-.
Qed.
Print Assumptions C21_gkp_state.

(** ** A concrete solver meeting the hypotheses: exact minimal-norm solutions of symmetric
    two-by-two systems, wrapped by the model of MinimalEuclideanNormSolver *)
Open Scope R_scope.
Definition sym2 (M : list (list R)) (b : list R) : list R :=
  match M, b with
  | [[p; q]; [_; r]], [b1; b2] =>
      if Req_EM_T (p * r - q * q) 0
      then if Req_EM_T (p + r) 0 then [0; 0]
           else [(p * b1 + q * b2) / (p + r) ^ 2; (q * b1 + r * b2) / (p + r) ^ 2]
      else [(r * b1 - q * b2) / (p * r - q * q); (p * b2 - q * b1) / (p * r - q * q)]
  | _, _ => map (fun _ => 0) b
  end.
Definition sym2_solver (A : list (list R)) (r : R) (b : list R) (I : list (list R)) : list R := sym2 (Rridge A (Rabs r) I) b.
Definition sym2_lstsq (M : list (list ER)) (b : list ER) : list ER := map Fin (sym2 (map (map unfin) M) (map unfin b)).

Lemma unfin_Fin l : map unfin (map Fin l) = l.
Proof. rewrite map_map. apply map_id. Qed.
Lemma sym2_finite : finite_solver (min_norm_solver EROps sym2_lstsq) sym2_solver.
Proof.
  intros A r b I. unfold min_norm_solver, sym2_lstsq, sym2_solver. rewrite fabs_fin, unfin_Fin. f_equal. f_equal. unfold Rridge.
  revert I. induction A as [|row A IH]; intros [|e I]; cbn [map map2]; auto. f_equal; [|apply IH].
  clear IH. revert e. induction row as [|a row IH]; intros [|c e]; cbn [map map2]; auto. f_equal. apply IH.
Qed.

Lemma min_norm_intro M b z : length z = length b -> length M = length b ->
  (forall h, length h = length b -> Rdot (defect M b z) (Rmv M h) = 0) ->
  (forall h, length h = length b -> Rdot (Rmv M h) (Rmv M h) <= 0 -> Rdot z h = 0) ->
  is_min_norm M b z.
Proof.
  intros Lz LM H1 H2. split; [exact Lz|]. intros z' Lz'. set (h := dif z' z).
  assert (Lh : length h = length b) by (unfold h, dif; rewrite map2_length; lia).
  assert (EZ : z' = shift 1 z h).
  { unfold h, dif, shift. clear -Lz Lz'. assert (L : length z = length z') by lia. clear Lz Lz'. revert z' L. induction z as [|a z IH]; intros [|c z'] L; try discriminate; auto.
    simpl. f_equal; [ring|]. apply IH. simpl in L. lia. }
  clearbody h. subst z'. rewrite residual_shift by lia. rewrite H1 by assumption.
  assert (N := Rdot_self_nonneg (Rmv M h)). split; [lra|]. intros Q.
  assert (Z := H2 h Lh ltac:(lra)).
  assert (E : Rdot (shift 1 z h) (shift 1 z h) = Rdot z z + 2 * Rdot z h + Rdot h h).
  { assert (L : length z = length h) by lia. clear -L. unfold shift. revert h L. induction z as [|a z IH]; intros [|c h] L; try discriminate; [unfold Rdot; simpl; ring|].
    cbn [map2]. rewrite !Rdot_cons, IH by (simpl in L; lia). ring. }
  rewrite E, Z. pose proof (Rdot_self_nonneg h). lra.
Qed.
Lemma sym2_correct p q r b1 b2 : is_min_norm [[p; q]; [q; r]] [b1; b2] (sym2 [[p; q]; [q; r]] [b1; b2]).
Proof.
  assert (Sq : forall a b, a * a + b * b <= 0 -> a = 0 /\ b = 0) by (intros; split; nra).
  unfold sym2. destruct (Req_EM_T (p * r - q * q) 0) as [D|D]; [destruct (Req_EM_T (p + r) 0) as [T|T]|].
  - assert (Z : p = 0 /\ q = 0) by (apply Sq; nra). destruct Z as [-> ->]. assert (r = 0) by lra. subst.
    apply min_norm_intro; auto; intros [|h1 [|h2 [|]]] L; try discriminate; unfold defect, Rmv, Rdot; simpl; intros; ring.
  - apply min_norm_intro; auto; intros [|h1 [|h2 [|]]] L; try discriminate; unfold defect, Rmv, Rdot; simpl.
    + set (x1 := p * h1 + (q * h2 + 0)). set (x2 := q * h1 + (r * h2 + 0)).
      (* M z - b is orthogonal to the range because M M = (trace) M *)
      assert (E : q * q = p * r) by lra.
      assert (E1 : p * ((p * b1 + q * b2) / ((p + r) * ((p + r) * 1))) + (q * ((q * b1 + r * b2) / ((p + r) * ((p + r) * 1))) + 0) = (p * b1 + q * b2) / (p + r)).
      { replace (q * ((q * b1 + r * b2) / ((p + r) * ((p + r) * 1)))) with ((q * q * b1 + q * r * b2) / ((p + r) * (p + r))) by (field; lra). rewrite E. field. lra. }
      assert (E2 : q * ((p * b1 + q * b2) / ((p + r) * ((p + r) * 1))) + (r * ((q * b1 + r * b2) / ((p + r) * ((p + r) * 1))) + 0) = (q * b1 + r * b2) / (p + r)).
      { replace (q * ((p * b1 + q * b2) / ((p + r) * ((p + r) * 1)))) with ((q * p * b1 + q * q * b2) / ((p + r) * (p + r))) by (field; lra). rewrite E. field. lra. }
      rewrite E1, E2. unfold x1, x2.
      transitivity ((h1 * ((p * p + q * q - p * (p + r)) * b1 + (q * p + q * r - q * (p + r)) * b2)
        + h2 * ((q * p + r * q - q * (p + r)) * b1 + (q * q + r * r - r * (p + r)) * b2)) / (p + r)); [field; lra|].
      rewrite E. field. lra.
    + intros Hh. destruct (Sq (p * h1 + (q * h2 + 0)) (q * h1 + (r * h2 + 0)) ltac:(lra)) as [Z1 Z2].
      transitivity ((b1 * (p * h1 + (q * h2 + 0)) + b2 * (q * h1 + (r * h2 + 0))) / ((p + r) * (p + r))); [field; lra|].
      rewrite Z1, Z2. field. lra.
  - apply min_norm_intro; auto; intros [|h1 [|h2 [|]]] L; try discriminate; unfold defect, Rmv, Rdot; simpl.
    + intros. field. lra.
    + intros Hh. destruct (Sq (p * h1 + (q * h2 + 0)) (q * h1 + (r * h2 + 0)) ltac:(lra)) as [Z1 Z2].
      assert (h1 = 0).
      { apply Rmult_eq_reg_l with (p * r - q * q); [|exact D].
        replace ((p * r - q * q) * h1) with (r * (p * h1 + (q * h2 + 0)) - q * (q * h1 + (r * h2 + 0))) by ring. rewrite Z1, Z2. ring. }
      assert (h2 = 0).
      { apply Rmult_eq_reg_l with (p * r - q * q); [|exact D].
        replace ((p * r - q * q) * h2) with (p * (q * h1 + (r * h2 + 0)) - q * (p * h1 + (q * h2 + 0))) by ring. rewrite Z1, Z2. ring. }
      subst. ring.
Qed.
Lemma sym2_ok : least_squares_ok 2 sym2_solver.
Proof.
  intros A r b v [LA RA] SA Hr Lb Lv. unfold sym2_solver. rewrite Rabs_right by lra.
  destruct A as [|r1 [|r2 [|]]]; try discriminate LA. assert (L1 := RA r1 (or_introl eq_refl)). assert (L2 := RA r2 (or_intror (or_introl eq_refl))).
  destruct r1 as [|a11 [|a12 [|]]]; try discriminate L1. destruct r2 as [|a21 [|a22 [|]]]; try discriminate L2.
  assert (E := SA 0%nat 1%nat). cbn in E. subst a21. destruct b as [|b1 [|b2 [|]]]; try discriminate Lb. destruct v as [|v1 [|v2 [|]]]; try discriminate Lv.
  unfold Rridge, Rdiag. cbn [seq length map upd repeat nth map2]. rewrite Rmult_0_r. apply sym2_correct.
Qed.

Definition example_gkp (unique : bool) (candidates : option Z) : gkp (V := ER) (P := R) (K := unit) :=
  mkGKP 2 (fun a b => Fin (a * b)) (Fin 1) unique candidates None (min_norm_solver EROps sym2_lstsq) (fun k n => repeat k n) (fun _ n => seq 0 n) tt.
Lemma example_usable u c : batch_arg_ok c -> usable (example_gkp u c) (fun a b => a * b) 1 sym2_solver.
Proof.
  intros H. constructor; try reflexivity; auto; try exact I.
  - exact sym2_finite.
  - intros k n. apply repeat_length.
  - intros k n. apply Permutation_refl.
Qed.
Example C25_applies : exists res g,
  gkp_reduce EROps 0 (example_gkp true (Some 2%Z)) (supervised [1; 2; 3] [Fin 1; Fin 1; Fin 1] [1; -1; 2]) None
    = Ok (mkCS res (repeat (Fin 1) 2) (supervised [1; 2; 3] [Fin 1; Fin 1; Fin 1] [1; -1; 2]), g) /\
  length res = 2%nat /\ NoDup res /\ Forall (in_range 3) res.
Proof.
  apply (C25_reduce_unique_partial 0 (example_gkp true (Some 2%Z)) (fun a b => a * b) 1 sym2_solver);
    [apply example_usable; cbn; lia|reflexivity|cbn; lia|cbn; lia|reflexivity|apply Nat.leb_le; reflexivity].
Qed.
Example C25_refuted_applies : exists res g,
  gkp_reduce EROps 0 (example_gkp true (Some 1%Z)) (supervised [1; 2] [Fin 1; Fin 1] [1; -1]) None
    = Ok (mkCS res (repeat (Fin 1) 2) (supervised [1; 2] [Fin 1; Fin 1] [1; -1]), g) /\ ~ (NoDup res /\ Forall (in_range 2) res).
Proof. apply (C25_small_batch_refuted 0 (example_gkp true (Some 1%Z)) (fun a b => a * b) 1 sym2_solver); auto. apply example_usable. cbn. lia. Qed.
Example C26_applies : exists res g,
  gkp_refine EROps 0 (example_gkp true (Some 1%Z)) (mkCS [0; 1]%Z [Fin 1; Fin 1] (supervised [1; 2; 3] [Fin 1; Fin 1; Fin 1] [1; -1; 2])) None
    = Ok (mkCS res (repeat (Fin 1) 2) (supervised [1; 2; 3] [Fin 1; Fin 1; Fin 1] [1; -1; 2]), g) /\
  forall a a', fitted 0 (fun a b => a * b) [1; 2; 3] [1; -1; 2] 1 [0; 1]%Z a -> fitted 0 (fun a b => a * b) [1; 2; 3] [1; -1; 2] 1 res a' ->
    squared_error 0 (fun a b => a * b) [1; 2; 3] [1; -1; 2] res a' [0; 1; 2]%Z <= squared_error 0 (fun a b => a * b) [1; 2; 3] [1; -1; 2] [0; 1]%Z a [0; 1; 2]%Z.
Proof.
  destruct (C26_refine_never_worse 0 (example_gkp true (Some 1%Z)) (fun a b => a * b) 1 sym2_solver [1; 2; 3] [Fin 1; Fin 1; Fin 1] [1; -1; 2] [0; 1]%Z [Fin 1; Fin 1])
    as [res [g [E [_ [_ [_ [_ H]]]]]]]; auto.
  - apply example_usable. cbn. lia.
  - apply sym2_ok.
  - intros. apply Rmult_comm.
  - cbn. lia.
  - cbn. lia.
  - repeat constructor; cbn; lia.
  - intros _. repeat constructor; cbn; intuition lia.
  - exists res, g. auto.
Qed.
Example C26_steps_apply : exists res g candidates losses,
  let start := [-1; -1]%Z in
  gkp_refine EROps 0 (example_gkp false (Some 2%Z)) (mkCS [-1; -1]%Z [Fin 0; Fin 0] (supervised [1; 2; 3] [Fin 1; Fin 1; Fin 1] [1; -1; 2])) None
    = Ok (mkCS res (repeat (Fin 1) 2) (supervised [1; 2; 3] [Fin 1; Fin 1; Fin 1] [1; -1; 2]), g) /\
  forall t, (t < 2)%nat -> In (nth t res 0%Z) (candidates t) /\
    forall b, In b (candidates t) -> forall a a',
      let with_ b := firstn t res ++ b :: skipn (S t) start in
      fitted 0 (fun a b => a * b) [1; 2; 3] [1; -1; 2] 1 (active (with_ (nth t res 0%Z))) a ->
      fitted 0 (fun a b => a * b) [1; 2; 3] [1; -1; 2] 1 (active (with_ b)) a' ->
      squared_error 0 (fun a b => a * b) [1; 2; 3] [1; -1; 2] (active (with_ (nth t res 0%Z))) a (losses t)
      <= squared_error 0 (fun a b => a * b) [1; 2; 3] [1; -1; 2] (active (with_ b)) a' (losses t).
Proof.
  destruct (C26_best_candidate 0 (example_gkp false (Some 2%Z)) (fun a b => a * b) 1 sym2_solver [1; 2; 3] [Fin 1; Fin 1; Fin 1] [1; -1; 2] [-1; -1]%Z [Fin 0; Fin 0])
    as [res [g [cand [losses [E [_ H]]]]]].
  - apply example_usable. cbn. lia.
  - apply sym2_ok.
  - intros. apply Rmult_comm.
  - reflexivity.
  - cbn. lia.
  - cbn. lia.
  - intros i [<-|[<-|[]]]; now right.
  - exists res, g, cand, losses. split; [exact E|]. intros t Ht. destruct (H t Ht) as [_ [_ [H1 H2]]]. split; [exact H1|].
    intros b Ib a a'. refine (proj2 (proj2 (proj2 (H2 b Ib _))) a a'). discriminate.
Qed.
Example C26_ridge_applies : ridge_equations 0 (fun a b => a * b) [1; 2] [3; 1] 1 [0]%Z [3 / 2].
Proof. split; [reflexivity|]. intros [|i] Hi; [|cbn in Hi; lia]. rewrite Rabs_R1. unfold Rdot, kz, yz. cbn. lra. Qed.
Example C21_gkp_applies : exists c' g, gkp_reduce EROps 0 (example_gkp true None) (supervised [1; 2; 3] [Fin 1; Fin 1; Fin 1] [1; -1; 2]) None = Ok (c', g).
Proof.
  destruct (C25_reduce_in_range_partial 0 (example_gkp true None) (fun a b => a * b) 1 sym2_solver [1; 2; 3] [Fin 1; Fin 1; Fin 1] [1; -1; 2]) as [res [g [E _]]];
    [apply example_usable; exact I|reflexivity|cbn; lia..|reflexivity|]. eauto.
Qed.
