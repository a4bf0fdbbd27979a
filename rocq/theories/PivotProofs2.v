(** * Expected residual of randomly pivoted Cholesky: the chain of pivots *)
From Coq Require Import List ZArith Bool Reals Lia Lra.
From Verif Require Import Num Jax RSum JaxFacts MetricSpec MetricProofs CholSpec CholProofs2 HalvingSpec HalvingProofs PivotSpec PivotProofs.
From Coquelicot Require Import Coquelicot.
Import ListNotations.
Open Scope R_scope.

Lemma Rsum_swap {A B} (f : A -> B -> R) la lb :
  Rsum (map (fun a => Rsum (map (fun b => f a b) lb)) la) = Rsum (map (fun b => Rsum (map (fun a => f a b) la)) lb).
Proof.
  induction la as [|a la IH]; cbn [map Rsum].
  - symmetry. apply Rsum_map_const0.
  - rewrite IH, <- Rsum_map_add. apply Rsum_map_ext. intros; reflexivity.
Qed.
Lemma Rsum_le_map {A} (f g : A -> R) l : (forall a, In a l -> f a <= g a) -> Rsum (map f l) <= Rsum (map g l).
Proof.
  induction l as [|a l IH]; intro H; cbn; [lra|]. pose proof (H a (or_introl eq_refl)).
  specialize (IH ltac:(intros; apply H; now right)). lra.
Qed.

Section Chain.
  Context (n : nat) (vs : list (nat -> R)) (Hvs : orthonormal n vs) (Hv0 : vs <> []).
  Notation r := (INR (length vs)).
  Definition tq (Q : nat -> nat -> R) : R := Rsum (map (fun i => Q i i) (seq 0 n)).
  Definition quad (Q : nat -> nat -> R) (v : nat -> R) : R := bil Q (vec n v) (vec n v).
  Definition cq (Q : nat -> nat -> R) : R := Rsum (map (quad Q) vs).
  Lemma r_ge1 : 1 <= r.
  Proof using Hv0. change 1 with (INR 1). apply le_INR. assert (length vs <> 0)%nat by (intro E; apply Hv0; now apply length_zero_iff_nil). lia. Qed.
  Lemma lin_vec v (f : nat -> R) : lin (vec n v) f = inner n v f.
  Proof. unfold lin, vec, inner. rewrite map_map. reflexivity. Qed.
  Lemma quad_inner Q v : quad Q v = inner n v (fun i => inner n v (fun j => Q i j)).
  Proof. unfold quad. rewrite bil_lin, lin_vec. unfold inner at 1 3. apply Rsum_map_ext. intros a _. cbv beta. now rewrite lin_vec. Qed.
  Lemma tq_nonneg Q : psd Q -> 0 <= tq Q.
  Proof. intro H. unfold tq. induction (seq 0 n) as [|a l IH]; cbn; [lra|]. pose proof (psd_diag Q a H). lra. Qed.
  Lemma tq_zero Q : psd Q -> tq Q = 0 -> forall i, (i < n)%nat -> Q i i = 0.
  Proof.
    intros H Z i Hi. assert (I : In i (seq 0 n)) by (apply in_seq; lia). revert Z I. unfold tq. clear Hi. clear - H.
    assert (N : forall l, 0 <= Rsum (map (fun j : nat => Q j j) l)).
    { intro l. induction l as [|a l IH]; cbn; [lra|]. pose proof (psd_diag Q a H). lra. }
    induction (seq 0 n) as [|a l IH]; intros Z I; [contradiction|]. cbn in Z. pose proof (psd_diag Q a H). specialize (N l).
    destruct I as [<-|I]; [lra|]. apply IH; [lra|exact I].
  Qed.
  Lemma cq_nonneg Q : psd Q -> 0 <= cq Q.
  Proof. intro H. unfold cq. clear - H. induction vs as [|v l IH]; cbn; [lra|]. pose proof (proj2 H (vec n v)). unfold quad in *. lra. Qed.
  Lemma quad_elim Q p v : psd Q -> Q p p <> 0 -> quad (eliminate Q p) v = quad Q v - inner n v (fun i => Q i p) ^ 2 / Q p p.
  Proof. intros H Hp. unfold quad. rewrite bil_elim by assumption. now rewrite lin_vec. Qed.
  Lemma quad_ext Q Q' v : (forall a b, Q a b = Q' a b) -> quad Q v = quad Q' v.
  Proof. intro E. unfold quad, bil. apply Rsum_map_ext. intros a _. cbv beta. f_equal. apply Rsum_map_ext. intros b _. cbv beta. now rewrite E. Qed.

  Lemma tail_mono Q p : psd Q -> tq (eliminate Q p) - cq (eliminate Q p) <= tq Q - cq Q.
  Proof using Hvs.
    intro H. destruct (Req_dec (Q p p) 0) as [Z|Z].
    - right.
      assert (E1 : tq (eliminate Q p) = tq Q) by (unfold tq; apply Rsum_map_ext; intros a _; cbv beta; now rewrite eliminate_null).
      assert (E2 : cq (eliminate Q p) = cq Q) by (unfold cq; apply Rsum_map_ext; intros v _; apply quad_ext; intros; now rewrite eliminate_null).
      now rewrite E1, E2.
    - assert (Hp : 0 < Q p p) by (pose proof (psd_diag Q p H); lra). set (g := fun i => Q i p).
      assert (E1 : tq (eliminate Q p) = tq Q - inner n g g / Q p p).
      { unfold tq, inner, Rdiv. rewrite <- (Rsum_map_scal_r (/ Q p p)), <- Rsum_map_sub. apply Rsum_map_ext. intros i _. reflexivity. }
      assert (E2 : cq (eliminate Q p) = cq Q - Rsum (map (fun v => inner n v g ^ 2) vs) / Q p p).
      { unfold cq, Rdiv. rewrite <- (Rsum_map_scal_r (/ Q p p)), <- Rsum_map_sub. apply Rsum_map_ext. intros v _. now apply quad_elim. }
      rewrite E1, E2. pose proof (bessel n vs Hvs g) as B.
      assert (Rsum (map (fun v => inner n v g ^ 2) vs) / Q p p <= inner n g g / Q p p); [|lra].
      apply Rmult_le_compat_r; [left; now apply Rinv_0_lt_compat|exact B].
  Qed.

  Lemma weighted_quad Q p v : psd Q -> Q p p * quad (eliminate Q p) v = Q p p * quad Q v - inner n v (fun i => Q i p) ^ 2.
  Proof.
    intro H. destruct (Req_dec (Q p p) 0) as [Z|Z].
    - rewrite Z. replace (inner n v (fun i => Q i p)) with 0; [ring|]. unfold inner. symmetry.
      rewrite (Rsum_map_ext _ (fun _ => 0)); [apply Rsum_map_const0|]. intros i _. cbv beta. rewrite (proj1 H i p), (psd_zero Q p i H Z). ring.
    - rewrite quad_elim by assumption. field. exact Z.
  Qed.
  Lemma cap_step Q : psd Q -> 0 < tq Q ->
    Rsum (map (fun p => Q p p / tq Q * cq (eliminate Q p)) (seq 0 n)) <= cq Q - cq Q ^ 2 / (r * tq Q).
  Proof using Hvs Hv0.
    intros H HT. pose proof r_ge1 as Hr.
    assert (E : Rsum (map (fun p => Q p p / tq Q * cq (eliminate Q p)) (seq 0 n))
      = cq Q - / tq Q * Rsum (map (fun v => inner n (fun p => inner n v (fun i => Q i p)) (fun p => inner n v (fun i => Q i p))) vs)).
    { transitivity (/ tq Q * Rsum (map (fun p => Rsum (map (fun v => Q p p * quad Q v - inner n v (fun i => Q i p) ^ 2) vs)) (seq 0 n))).
      - rewrite <- Rsum_map_scal. apply Rsum_map_ext. intros p _. cbv beta. unfold cq, Rdiv.
        rewrite (Rmult_comm (Q p p)), Rmult_assoc, <- Rsum_map_scal. f_equal. apply Rsum_map_ext. intros v _. cbv beta. now rewrite weighted_quad.
      - rewrite (Rsum_map_ext _ (fun p => Q p p * cq Q - Rsum (map (fun v => inner n v (fun i => Q i p) ^ 2) vs))).
        2: { intros p _. cbv beta. unfold cq. rewrite Rsum_map_sub, Rsum_map_scal. reflexivity. }
        rewrite Rsum_map_sub, Rsum_map_scal_r. fold (tq Q). rewrite Rsum_swap.
        rewrite Rmult_minus_distr_l, <- Rmult_assoc, Rinv_l, Rmult_1_l by lra. f_equal. f_equal. apply Rsum_map_ext. intros v _. cbv beta.
        unfold inner at 2. apply Rsum_map_ext. intros p _. cbv beta. ring. }
    rewrite E.
    assert (CS : Rsum (map (fun v => quad Q v ^ 2) vs) <= Rsum (map (fun v => inner n (fun p => inner n v (fun i => Q i p)) (fun p => inner n v (fun i => Q i p))) vs)).
    { apply Rsum_le_map. intros v Hv. pose proof (orthonormal_unit n vs Hvs v Hv) as U.
      pose proof (bessel n [v] ltac:(cbn; repeat split; auto; intros w []) (fun p => inner n v (fun i => Q i p))) as B. cbn [map Rsum] in B.
      rewrite Rplus_0_r in B. rewrite quad_inner.
      replace (inner n v (fun i => inner n v (fun j => Q i j))) with (inner n v (fun p => inner n v (fun i => Q i p))); [exact B|].
      unfold inner at 1 3. apply Rsum_map_ext. intros p _. cbv beta. f_equal. unfold inner. apply Rsum_map_ext. intros i _. cbv beta. now rewrite (proj1 H i p). }
    assert (SQ : cq Q ^ 2 <= r * Rsum (map (fun v => quad Q v ^ 2) vs)).
    { unfold cq. pose proof (sum_square_le (map (quad Q) vs)) as S. rewrite map_map, map_length in S. exact S. }
    set (S2 := Rsum (map (fun v => quad Q v ^ 2) vs)) in *. set (S3 := Rsum (map (fun v => inner n (fun p => inner n v (fun i => Q i p)) (fun p => inner n v (fun i => Q i p))) vs)) in *. clearbody S2 S3. clear E.
    assert (X : cq Q ^ 2 / (r * tq Q) <= / tq Q * S3); [|lra].
    apply (Rmult_le_reg_l (r * tq Q)); [nra|].
    replace (r * tq Q * (cq Q ^ 2 / (r * tq Q))) with (cq Q ^ 2) by (field; lra).
    replace (r * tq Q * (/ tq Q * S3)) with (r * S3) by (field; lra).
    assert (r * S2 <= r * S3) by (apply Rmult_le_compat_l; lra). lra.
  Qed.

  (** *** the chain *)
  Context (K : nat -> nat -> R) (HK : psd K) (draw : list ER -> R -> nat) (Hdraw : draws_by_weight draw) (B : R) (HB : 0 < B).
  Notation Q l := (residual K l).
  Definition dg (l : list nat) : list R := map (fun i => Q l i i) (seq 0 n).
  Lemma dg_sum l : Rsum (dg l) = tq (Q l).
  Proof. reflexivity. Qed.
  Lemma dg_nth l j : (j < n)%nat -> nth j (dg l) 0 = Q l j j.
  Proof. intro H. unfold dg. rewrite (nth_indep _ 0 (Q l 0%nat 0%nat)) by (rewrite map_length, seq_length; lia).
    rewrite (map_nth (fun i => Q l i i)), seq_nth by lia. reflexivity. Qed.
  Fixpoint chain (us : list R) (l : list nat) : list nat :=
    match us with
    | [] => l
    | u :: us => if Req_EM_T (tq (Q l)) 0 then l else chain us (l ++ [draw (map Fin (dg l)) u])
    end.
  Fixpoint cval (m : nat) (l : list nat) : R :=
    match m with
    | 0%nat => tq (Q l)
    | S m => if Req_EM_T (tq (Q l)) 0 then 0
             else Rsum (map (fun j => nth j (dg l) 0 / Rsum (dg l) * cval m (l ++ [j])) (seq 0 n))
    end.
  Lemma expect_const m c : expect m (fun _ => c) c.
  Proof.
    induction m as [|m IH]; cbn; [reflexivity|]. exists (fun _ => c). split; [intros; exact IH|].
    assert (E : is_RInt (fun _ : R => c) 0 1 (scal (1 - 0) c)) by apply (is_RInt_const (V := R_NormedModule) 0 1 c).
    replace (scal (1 - 0) c) with c in E; [exact E|]. unfold scal. cbn. unfold mult. cbn. ring.
  Qed.
  Lemma expect_chain m : forall l, expect m (fun us => tq (Q (chain us l))) (cval m l).
  Proof using HK Hdraw.
    induction m as [|m IH]; intro l; [reflexivity|]. cbn [cval chain expect].
    destruct (Req_EM_T (tq (Q l)) 0) as [Z|Z].
    - rewrite Z. apply (expect_const (S m) 0).
    - exists (fun u => cval m (l ++ [draw (map Fin (dg l)) u])). split; [intros u _; apply IH|].
      pose proof (residual_psd l K HK) as HQ.
      assert (P1 : forall x, In x (dg l) -> 0 <= x).
      { intros x Hx. unfold dg in Hx. apply in_map_iff in Hx as (i & <- & _). now apply psd_diag. }
      assert (P2 : 0 < Rsum (dg l)) by (rewrite dg_sum; pose proof (tq_nonneg (Q l) HQ); lra).
      pose proof (Hdraw (dg l) P1 P2 (fun j => cval m (l ++ [j]))) as D. unfold dg at 4 in D. rewrite map_length, seq_length in D. exact D.
  Qed.
  Lemma cval_bound m : forall l, tq (Q l) - cq (Q l) <= B -> cval m l <= B + Nat.iter m (step r B) (cq (Q l)).
  Proof using Hvs Hv0 HK HB.
    pose proof r_ge1 as Hr.
    induction m as [|m IH]; intros l Hl; pose proof (residual_psd l K HK) as HQ; pose proof (cq_nonneg _ HQ) as HC.
    - cbn. lra.
    - cbn [cval]. destruct (Req_EM_T (tq (Q l)) 0) as [Z|Z].
      + pose proof (iter_nonneg r B Hr HB (S m) _ HC). lra.
      + assert (HT : 0 < tq (Q l)) by (pose proof (tq_nonneg (Q l) HQ); lra).
        assert (W : forall j, In j (seq 0 n) -> 0 <= Q l j j / tq (Q l)).
        { intros j _. apply Rmult_le_pos; [now apply psd_diag|left; now apply Rinv_0_lt_compat]. }
        assert (W1 : Rsum (map (fun j => Q l j j / tq (Q l)) (seq 0 n)) = 1).
        { unfold Rdiv. rewrite Rsum_map_scal_r. fold (tq (Q l)). now apply Rinv_r. }
        rewrite dg_sum. rewrite (Rsum_map_ext _ (fun j => Q l j j / tq (Q l) * cval m (l ++ [j]))) by (intros j Hj; apply in_seq in Hj; now rewrite dg_nth by lia).
        eapply Rle_trans.
        { apply (avg_le (seq 0 n) (fun j => Q l j j / tq (Q l)) W _ (fun j => B + 1 * Nat.iter m (step r B) (cq (Q (l ++ [j]))))).
          intros j Hj. rewrite Rmult_1_l. apply IH. rewrite residual_snoc. pose proof (tail_mono (Q l) j HQ). lra. }
        rewrite (avg_lin (seq 0 n) (fun j => Q l j j / tq (Q l)) W1), Rmult_1_l. apply Rplus_le_compat_l.
        eapply Rle_trans; [apply (iter_jensen r B Hr HB (seq 0 n) (fun j => Q l j j / tq (Q l)) W W1 m (fun j => cq (Q (l ++ [j]))))|].
        { intros j _. apply cq_nonneg, residual_psd, HK. }
        assert (SW : Nat.iter (S m) (step r B) (cq (Q l)) = Nat.iter m (step r B) (step r B (cq (Q l)))).
        { clear. induction m as [|m IH]; [reflexivity|]. cbn [Nat.iter] in *. unfold Nat.iter in *. cbn in *. now rewrite IH. }
        rewrite SW.
        apply (iter_le r B Hr HB). split.
        { replace 0 with (Rsum (map (fun j => Q l j j / tq (Q l) * 0) (seq 0 n))).
          - apply (avg_le (seq 0 n) (fun j => Q l j j / tq (Q l)) W (fun _ => 0)). intros j _. apply cq_nonneg, residual_psd, HK.
          - rewrite (Rsum_map_ext _ (fun _ => 0)); [apply Rsum_map_const0|]. intros; ring. }
        rewrite (Rsum_map_ext _ (fun j => Q l j j / tq (Q l) * cq (eliminate (Q l) j))) by (intros; now rewrite residual_snoc).
        eapply Rle_trans; [now apply cap_step|]. unfold step.
        assert (X : cq (Q l) ^ 2 / (r * (cq (Q l) + B)) <= cq (Q l) ^ 2 / (r * tq (Q l))); [|lra].
        apply Rmult_le_compat_l; [apply pow2_ge_0|]. apply Rinv_le_contravar; [nra|]. apply Rmult_le_compat_l; lra.
  Qed.

  (** a converged residual stays converged *)
  Lemma converged l l' : tq (Q l) = 0 -> (forall p, In p l' -> (p < n)%nat) -> tq (Q (l ++ l')) = 0.
  Proof using HK.
    revert l. induction l' as [|p l' IH]; intros l Z H; [now rewrite app_nil_r|].
    replace (l ++ p :: l') with ((l ++ [p]) ++ l') by (now rewrite <- app_assoc). apply IH; [|intros; apply H; now right].
    rewrite residual_snoc. pose proof (residual_psd l K HK) as HQ. rewrite <- Z. unfold tq. apply Rsum_map_ext. intros i _. cbv beta.
    apply eliminate_null; [exact HQ|]. apply tq_zero; [exact HQ|exact Z|]. apply H. now left.
  Qed.
  (** pivots that follow the draws until convergence have the residual trace of the chain *)
  Lemma chain_spec us : forall l L, length L = (length l + length us)%nat -> firstn (length l) L = l ->
    (forall p, In p L -> (p < n)%nat) ->
    (forall t, (t < length us)%nat -> tq (Q (firstn (length l + t) L)) <> 0 ->
       (forall u, (u < t)%nat -> tq (Q (firstn (length l + u) L)) <> 0) ->
       nth (length l + t) L 0%nat = draw (map Fin (dg (firstn (length l + t) L))) (nth t us 0)) ->
    tq (Q L) = tq (Q (chain us l)).
  Proof using HK.
    induction us as [|u us IH]; intros l L HL HP HR HD; cbn [chain length] in *.
    - f_equal. f_equal. rewrite <- HP. symmetry. apply firstn_all2. lia.
    - destruct (Req_EM_T (tq (Q l)) 0) as [Z|Z].
      + rewrite <- (firstn_skipn (length l) L), HP. rewrite Z. apply converged; [exact Z|].
        intros p Hp. apply HR. rewrite <- (firstn_skipn (length l) L). apply in_or_app. now right.
      + assert (D0 : nth (length l) L 0%nat = draw (map Fin (dg l)) u).
        { specialize (HD 0%nat ltac:(lia)). rewrite Nat.add_0_r, HP in HD. apply HD; [exact Z|]. intros; lia. }
        assert (FN : firstn (length (l ++ [draw (map Fin (dg l)) u])) L = l ++ [draw (map Fin (dg l)) u]).
        { rewrite app_length. cbn [length]. rewrite <- D0, Nat.add_1_r.
          transitivity (firstn (S (length l)) (l ++ skipn (length l) L)); [f_equal; rewrite <- (firstn_skipn (length l) L) at 1; now rewrite HP|].
          destruct (skipn (length l) L) as [|b rest] eqn:ES.
          - exfalso. pose proof (skipn_length (length l) L) as SL. rewrite ES in SL. cbn in SL. lia.
          - assert (EB : nth (length l) L 0%nat = b).
            { rewrite <- (firstn_skipn (length l) L), HP, ES. rewrite app_nth2, Nat.sub_diag by lia. reflexivity. }
            rewrite EB. rewrite firstn_app. rewrite firstn_all2 by lia. replace (S (length l) - length l)%nat with 1%nat by lia. reflexivity. }
        apply IH; [rewrite app_length; cbn; lia|exact FN|exact HR|].
        rewrite app_length. cbn [length]. intros t Ht N1 N2. specialize (HD (S t) ltac:(lia)).
        replace (length l + 1 + t)%nat with (length l + S t)%nat in * by lia. apply HD; [exact N1|].
        intros [|v] Hv; [rewrite Nat.add_0_r, HP; exact Z|]. specialize (N2 v ltac:(lia)).
        now replace (length l + 1 + v)%nat with (length l + S v)%nat in N2 by lia.
  Qed.
End Chain.
