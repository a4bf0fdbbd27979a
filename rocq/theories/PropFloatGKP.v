(** * Greedy kernel points in floating point arithmetic: C89 *)
From Coq Require Import List ZArith Bool Reals Permutation Lia Lra.
From Coq Require Import Floats.SpecFloat.
From Flocq Require Import Core.Core IEEE754.BinarySingleNaN.
From Verif Require Import Num Jax RSum JaxFacts DataModel GreedyModel UtilModel GKPModel GKPSpec GKPProofs GKPProofs2 MapReduceProofs3
  FloatGKP Float FloatProofs2 FloatGreedy FloatIdxSpec PropFloatIdx FloatGKPSpec FloatGKP2.
Import ListNotations.
Open Scope nat_scope.

(** solver object whose kernel values are at most [2^e], whose least-squares solver returns
    coefficients of size at most [2^c] on systems of [coreset_size] equations, with lawful
    random primitives and non-negative batch sizes *)
Record float_usable {prec emax P K} (s : gkp (V := binary_float prec emax) (P := P) (K := K)) (a e c : Z) : Prop := mkFU {
  fu_kernel : forall p q, at_most e (gk_kernel s p q);
  fu_solve : solver_bounded (gk_size s) e (a + e + c - 1) c (gk_solve s);
  fu_split : split_ok (gk_split s);
  fu_perm : permutation_ok (gk_permutation s);
  fu_cand : batch_arg_ok (gk_candidates s);
  fu_loss : batch_arg_ok (gk_loss s) }.
(** number of candidates sampled in each step *)
Definition candidates_used (b : option Z) (n : nat) : nat := match b with None => n | Some z => Nat.min n (Z.to_nat z) end.
Lemma used_ok b n : batch_arg_ok b -> batch_size b n = Z.of_nat (candidates_used b n).
Proof. intros H. unfold batch_size, candidates_used. destruct b as [z|]; [|reflexivity]. simpl in H. destruct (Z.ltb_spec (Z.of_nat n) z); lia. Qed.

(** ** C89.  In IEEE arithmetic, with room for the squared predictions, [reduce] with
    [unique] returns [coreset_size] distinct row numbers of the data, provided at least
    [coreset_size] candidates are sampled in each step. *)
Theorem C89_reduce_unique :
  forall prec emax (Hp : Prec_gt_0 prec) (Hm : Prec_lt_emax prec emax) (Sm : SumOrder prec emax) a e c, fit_room prec emax a e c ->
  forall {P K} (p0 : P) (s : gkp (V := binary_float prec emax) (P := P) (K := K)) x w y,
  float_usable s a e c -> (Z.of_nat (length x) <= 2 ^ a)%Z -> Forall (at_most (a + e + c - 1)) y ->
  0 < length x -> gk_size s <= length x -> gk_unique s = true -> gk_size s <= candidates_used (gk_candidates s) (length x) ->
  exists res g, gkp_reduce (FOpsIEEE prec emax) p0 s (mkData x w (Some y)) None = Ok (mkCS res (repeat Bone (gk_size s)) (mkData x w (Some y)), g) /\
    length res = gk_size s /\ NoDup res /\ Forall (in_range (length x)) res.
Proof.
  intros prec emax Hp Hm Sm a e c FR P K p0 s x w y U Hna Hy Hn Hmn Hu Hb. unfold gkp_reduce. rewrite initial_ok by exact Hmn. cbn [bind].
  assert (EI : initial_indices (gk_size s) (repeat (-1)%Z (gk_size s)) = repeat (-1)%Z (gk_size s)).
  { unfold initial_indices. rewrite repeat_length, Nat.ltb_irrefl, firstn_all2; [reflexivity|now rewrite repeat_length]. }
  destruct (float_distinct prec emax a e c FR p0 s x w y (repeat (-1)%Z (gk_size s)) (repeat (f0 (FOpsIEEE prec emax)) (gk_size s))
     (fu_kernel _ _ _ _ U) Hy Hna (fu_solve _ _ _ _ U) (fu_split _ _ _ _ U) (fu_perm _ _ _ _ U) (fu_cand _ _ _ _ U) (fu_loss _ _ _ _ U) Hmn Hn Hu)
    as [res [E [L [N R]]]].
  - rewrite EI. split.
    + assert (Q : occupied (repeat (-1)%Z (gk_size s)) = []) by (generalize (gk_size s); intros q; induction q; simpl; auto). rewrite Q. constructor.
    + intros i Hi. apply repeat_spec in Hi. now right.
  - right. rewrite used_ok by apply U. lia.
  - exists res. eexists. split; [exact E|]. auto.
Qed.
Print Assumptions C89_reduce_unique.

(** [refine] from distinct in-range indices which fill the coreset, or are completed from
    large enough candidate batches *)
Theorem C89_refine_unique :
  forall prec emax (Hp : Prec_gt_0 prec) (Hm : Prec_lt_emax prec emax) (Sm : SumOrder prec emax) a e c, fit_room prec emax a e c ->
  forall {P K} (p0 : P) (s : gkp (V := binary_float prec emax) (P := P) (K := K)) x w y idx cw,
  float_usable s a e c -> (Z.of_nat (length x) <= 2 ^ a)%Z -> Forall (at_most (a + e + c - 1)) y ->
  0 < length x -> gk_size s <= length x -> gk_unique s = true -> NoDup idx -> Forall (in_range (length x)) idx ->
  gk_size s <= length idx \/ gk_size s <= candidates_used (gk_candidates s) (length x) ->
  exists res g, gkp_refine (FOpsIEEE prec emax) p0 s (mkCS idx cw (mkData x w (Some y))) None
      = Ok (mkCS res (repeat Bone (gk_size s)) (mkData x w (Some y)), g) /\
    length res = gk_size s /\ NoDup res /\ Forall (in_range (length x)) res.
Proof.
  intros prec emax Hp Hm Sm a e c FR P K p0 s x w y idx cw U Hna Hy Hn Hmn Hu ND R Big. rewrite Forall_forall in R.
  assert (OC : occupied idx = idx).
  { unfold occupied. clear -R. induction idx as [|b l IH]; simpl; auto. rewrite IH by (intros; apply R; now right).
    specialize (R b (or_introl eq_refl)). unfold in_range in R. destruct (Z.eqb_spec b (-1)); [lia|reflexivity]. }
  destruct (float_distinct prec emax a e c FR p0 s x w y idx cw
     (fu_kernel _ _ _ _ U) Hy Hna (fu_solve _ _ _ _ U) (fu_split _ _ _ _ U) (fu_perm _ _ _ _ U) (fu_cand _ _ _ _ U) (fu_loss _ _ _ _ U) Hmn Hn Hu)
    as [res [E [L [N Q]]]].
  - unfold initial_indices. destruct (Nat.ltb_spec (length idx) (gk_size s)).
    + split.
      * rewrite occupied_app, OC. assert (Q : forall q, occupied (repeat (-1)%Z q) = []) by (induction q; simpl; auto). now rewrite Q, app_nil_r.
      * intros i Hi. apply in_app_iff in Hi as [Hi|Hi]; [left; auto|right; now apply repeat_spec in Hi].
    + split.
      * apply NoDup_filter. rewrite <- (firstn_skipn (gk_size s) idx) in ND. clear -ND. induction (firstn (gk_size s) idx); [constructor|].
        simpl in ND. inversion ND; subst. constructor; auto. intros I. apply H1, in_app_iff. now left.
      * intros i Hi. left. apply R. rewrite <- (firstn_skipn (gk_size s) idx). apply in_app_iff. now left.
  - destruct Big as [Big|Big]; [left|right; rewrite used_ok by apply U; lia].
    intros t Ht. unfold initial_indices. destruct (Nat.ltb_spec (length idx) (gk_size s)); [lia|]. intros E.
    assert (I : in_range (length x) (nth t (firstn (gk_size s) idx) 0%Z)).
    { apply R. assert (I : In (nth t (firstn (gk_size s) idx) 0%Z) (firstn (gk_size s) idx)) by (apply nth_In; rewrite firstn_length; lia).
      rewrite <- (firstn_skipn (gk_size s) idx) at 2. apply in_app_iff. now left. }
    rewrite E in I. unfold in_range in I. lia.
  - exists res. eexists. split; [exact E|]. auto.
Qed.
Print Assumptions C89_refine_unique.

(** ** The condition is met, and it is needed *)
(** binary32: a thousand points, kernel values up to one, coefficients up to [2^40] and
    responses up to [2^49] *)
Example C89_room : fit_room 24 128 10 0 40.
Proof. constructor; lia. Qed.

(** the exact least-squares solver for two points whose kernel matrix is the identity:
    the two systems that occur are [I x = b] and, when a point is repeated, the singular
    system with all entries one *)
Definition two_point_solve (A : list (list F32)) (_ : F32) (b : list F32) (_ : list (list F32)) : list F32 :=
  match A with
  | [[_; v]; _] => if fgt0 F32Ops v then map (fun u => fdiv F32Ops u (f32 1 1)) b else b
  | _ => b
  end.
Definition two_point_gkp : gkp (V := F32) (P := nat) (K := unit) :=
  mkGKP 2 (fun i j => if Nat.eqb i j then Bone else B754_zero false) (B754_zero false) true None None two_point_solve
    (fun k n => repeat k n) (fun _ n => seq 0 n) tt.

Example C89_reduce_applies : exists res g,
  gkp_reduce F32Ops 0 two_point_gkp (mkData [0; 1] [Bone; Bone] (Some [Bone; Bone])) None
    = Ok (mkCS res (repeat Bone 2) (mkData [0; 1] [Bone; Bone] (Some [Bone; Bone])), g) /\ length res = 2 /\ NoDup res /\ Forall (in_range 2) res.
Proof.
  apply (C89_reduce_unique 24 128 _ _ _ 1 0 61).
  - constructor; lia.
  - constructor.
    + intros p q. cbn [gk_kernel two_point_gkp]. destruct (Nat.eqb p q); [split; [apply is_finite_Bone|rewrite Bone_correct, Rabs_R1; cbn; lra]|apply at_most_zero].
    + intros A reg b I HA Lb Hb. cbn [gk_solve two_point_gkp] in *. change (1 + 0 + 61 - 1)%Z with 61%Z in Hb.
      assert (HH : Forall (at_most 61) (map (fun u => fdiv F32Ops u (f32 1 1)) b)).
      { apply Forall_forall. intros v Hv. apply in_map_iff in Hv as [u [<- Hu]]. rewrite Forall_forall in Hb.
        apply at_most_bd. apply (bd_div 24 128 61 2); try lia; [apply at_most_bd; auto|reflexivity|].
        replace (f32 1 1) with (fofZ F32Ops 2) by (apply B2SF_inj; vm_compute; reflexivity).
        rewrite (proj2 (FloatRate3.ofZ_exact 24 128 2 ltac:(lia))). lra. }
      unfold two_point_solve. destruct A as [|[|? [|v []]] [|? []]]; auto. destruct (fgt0 F32Ops v); auto.
    + intros k n. apply repeat_length.
    + intros k n. reflexivity.
    + exact I.
    + exact I.
  - cbn. lia.
  - apply Forall_forall. intros v Hv. assert (v = Bone) as -> by (destruct Hv as [<-|[<-|[]]]; reflexivity).
    split; [apply is_finite_Bone|]. rewrite Bone_correct, Rabs_R1. change 1%R with (bpow radix2 0). apply bpow_le. lia.
  - cbn; lia.
  - cbn; lia.
  - reflexivity.
  - cbn; lia.
Qed.

(** Finding: with responses of [2^70], about 10^21, the losses overflow to minus infinity.
    Adding plus infinity to rule out the point already chosen then gives NaN, which
    [argmin] prefers to every number: the same point is chosen twice although [unique] is
    set.  The least-squares solver is exact on both systems that occur. *)
Theorem C89_large_responses_refuted :
  let y := f32 1 70 in
  let one : F32 := Bone in let zero : F32 := B754_zero false in
  map B2SF (two_point_solve [[one; zero]; [zero; one]] zero [y; y] []) = map B2SF [y; y] /\
  map B2SF (two_point_solve [[one; one]; [one; one]] zero [y; y] []) = map B2SF [f32 1 69; f32 1 69] /\
  gk_unique two_point_gkp = true /\ gk_size two_point_gkp = 2 /\ gk_candidates two_point_gkp = None /\
  exists g, gkp_reduce F32Ops 0 two_point_gkp (mkData [0; 1] [one; one] (Some [y; y])) None
    = Ok (mkCS [0; 0]%Z (repeat one 2) (mkData [0; 1] [one; one] (Some [y; y])), g).
Proof.
  cbv zeta. split; [vm_compute; reflexivity|]. split; [vm_compute; reflexivity|]. repeat (split; [reflexivity|]).
  eexists. unfold gkp_reduce. rewrite initial_ok by (cbn; lia). cbn [bind]. unfold gkp_refine. cbn [c_pre c_idx d_x d_y].
  match goal with |- context [setup_batch_solver ?o ?s ?i ?n] =>
    let v := eval vm_compute in (setup_batch_solver o s i n) in replace (setup_batch_solver o s i n) with v by (vm_compute; reflexivity) end.
  cbn [bind].
  match goal with |- context [k_idx ?o] => replace (k_idx o) with [0; 0]%Z by (vm_compute; reflexivity) end.
  reflexivity.
Qed.
Print Assumptions C89_large_responses_refuted.
