(** * The greedy selection loop in floating point arithmetic: which index is chosen *)
From Coq Require Import List ZArith Bool Reals Permutation Lia Lra.
From Coq Require Import Floats.SpecFloat.
From Flocq Require Import Core.Core IEEE754.BinarySingleNaN.
From Verif Require Import Num Jax RSum JaxFacts DataModel MeanModel GreedySpec GreedyModel GreedyProofs GreedyProofs2 LoopProofs
  Float FloatProofs2 FloatGreedy FloatIdxSpec FloatErr FloatRateSpec FloatRate.
Import ListNotations.
Open Scope nat_scope.

Section Loop.
  Context (prec emax : Z) {Hprec : Prec_gt_0 prec} {Hmax : Prec_lt_emax prec emax} {Sm : SumOrder prec emax}.
  Notation flt := (binary_float prec emax).
  Notation O := (FOpsIEEE prec emax).
  Notation big := (bpow radix2 emax).
  Notation gg := (gg prec). Notation apx := (apx prec emax).
  Notation nan := (B754_nan : flt).
  Notation inf := (B754_infinity false : flt).
  Context {P : Type} (p0 : P) (k : P -> P -> flt) (e : Z) (xs : list P) (dw : list flt) (m : nat) (unique : bool) (ord : nat -> list nat).
  Notation n := (length xs).
  Notation x := (fun j => nth j xs p0).
  Notation K := (bpow radix2 e).
  Notation dwR := (map B2R dw).
  Notation cand := (candidate dwR unique).
  Hypothesis Hk : forall a b, In a xs -> In b xs -> at_most e (k a b).
  Hypothesis Hdw : length dw = n.
  Hypothesis Wdw : Forall weight_ok dw.
  Hypothesis Hord : forall i, Permutation (ord i) (seq 0 m).
  Hypothesis Hbig : forall t, t <= m -> (gg t * (INR t * K) < big)%R.
  Hypothesis Hpos : 1 <= npos dwR.
  Hypothesis Huniq : unique = true -> m <= npos dwR.

  (** the penalty of row [j] after the choices [l] *)
  Definition pval (l : list nat) (j : nat) : R := Rsum (map (fun c => B2R (k (x j) (x c))) l).
  Definition fpen_ok (l : list nat) (pen : list flt) : Prop :=
    length pen = n /\ forall j, j < n ->
      (unique = true -> In j l -> nth j pen nan = inf) /\
      (unique = false \/ ~ In j l -> apx (length l) (nth j pen nan) (pval l j) (INR (length l) * K)).
  (** what the selection function is shown *)
  Definition fval_ok (l : list nat) (v : list flt) : Prop :=
    length v = n /\ forall j, j < n ->
      (cand l j -> apx (length l) (nth j v nan) (pval l j) (INR (length l) * K)) /\
      (~ cand l j -> nth j v nan = nan \/ nth j v nan = inf).

  Variables (sel : nat -> list flt -> Z -> Z) (score : list nat -> nat -> R) (tol : nat -> R).
  Definition fsel_ok : Prop := forall l v, length l < m -> (forall i, In i l -> i < n) -> fval_ok l v -> (exists j, cand l j) ->
    exists r, sel (length l) v (Z.of_nat (length l) + 1)%Z = Z.of_nat r /\ cand l r /\ forall j, cand l j -> (score l j <= score l r + tol (length l))%R.
  Hypothesis Hsel : fsel_ok.

  Lemma dwR_nth j : j < n -> nth j dwR 0%R = B2R (nth j dw nan).
  Proof. intros Hj. rewrite (nth_indep _ _ (B2R nan)) by (rewrite map_length; lia). apply map_nth. Qed.
  Lemma fgt0_nth j : j < n -> fgt0 O (nth j dw nan) = true <-> (0 < nth j dwR 0)%R.
  Proof.
    intros Hj. rewrite dwR_nth by assumption. unfold fgt0. cbn [fltb f0 FOpsIEEE].
    rewrite Forall_forall in Wdw. destruct (Wdw (nth j dw nan)) as [F _]; [apply nth_In; lia|].
    rewrite (Bltb_correct prec emax (B754_zero false) (nth j dw nan) eq_refl F). cbn [B2R]. case Rlt_bool_spec; intros; split; auto; try discriminate. intros; lra.
  Qed.
  Lemma some_cand l : length l < m -> (forall i, In i l -> i < n) -> exists j, cand l j.
  Proof.
    intros Hl HI. destruct unique eqn:U.
    - destruct (lpigeon (pos_idx xs dwR) l) as [j [J1 J2]].
      + apply pos_idx_nodup.
      + rewrite pos_idx_npos by (rewrite map_length; exact Hdw). specialize (Huniq eq_refl). lia.
      + apply pos_idx_spec in J1. exists j. rewrite <- U. split; [rewrite map_length; lia|]. split; [tauto|auto].
    - destruct (pos_idx xs dwR) as [|j q] eqn:E.
      + pose proof (pos_idx_npos xs dwR ltac:(rewrite map_length; exact Hdw)) as X. rewrite E in X. cbn in X. lia.
      + assert (J : In j (pos_idx xs dwR)) by (rewrite E; now left). apply pos_idx_spec in J. exists j. split; [rewrite map_length; lia|]. split; [tauto|discriminate].
  Qed.

  Notation cw := (repeat (f0 O) m).
  Lemma cw_none i : fgt0 O (nth i cw (f0 O)) = false.
  Proof. rewrite nth_repeat. reflexivity. Qed.
  Lemma fvalid l pen idx i : length idx = m -> fpen_ok l pen -> fval_ok l (valid_penalty O unique (ord i) dw cw idx i pen).
  Proof.
    intros HiL [PL HP]. unfold valid_penalty. set (valid := map2 _ dw pen).
    assert (HvL : length valid = n) by (unfold valid; rewrite map2_length; lia).
    assert (Hval : forall j, j < n -> nth j valid nan = if fgt0 O (nth j dw nan) then nth j pen nan else nan).
    { intros j Hj. unfold valid. now rewrite (nth_map2 _ _ _ _ nan nan) by lia. }
    assert (OK : fval_ok l valid).
    { split; auto. intros j Hj. rewrite Hval by assumption. destruct (HP j Hj) as [H1 H2]. split.
      - intros (C1 & C2 & C3). apply fgt0_nth in C2; auto. rewrite C2. apply H2. destruct unique; auto.
      - intros NC. destruct (fgt0 O (nth j dw nan)) eqn:G; auto. apply fgt0_nth in G; auto. right.
        destruct unique eqn:U.
        + apply H1; auto. destruct (in_dec Nat.eq_dec j l); auto. exfalso. apply NC. split; [rewrite map_length; lia|]. auto.
        + exfalso. apply NC. split; [rewrite map_length; lia|]. split; [auto|discriminate]. }
    destruct unique eqn:U; [|exact OK].
    set (vals := map2 _ idx cw).
    assert (E : forall j, j < n -> nth j (scatter (ord i) (f0 O) valid idx vals) nan = nth j valid nan).
    { intros j Hj. destruct (scatter_nth (ord i) (f0 O) nan valid idx vals j) as [E|[p [Hp [Hw [_ E]]]]]; auto.
      rewrite E. apply (Permutation_in _ (Hord i)) in Hp. apply in_seq in Hp. rewrite HvL in Hw.
      unfold vals. rewrite (nth_map2 _ _ _ _ 0%Z (f0 O)) by (rewrite ?repeat_length; lia). rewrite cw_none, andb_false_r.
      unfold jget, clamp. rewrite HvL, Hw. replace (Z.to_nat _) with j by lia. apply nth_indep. lia. }
    destruct OK as [O1 O2]. split; [rewrite scatter_length; exact HvL|]. intros j Hj. rewrite E by assumption. now apply O2.
  Qed.

  Lemma finf_add a b : In a xs -> In b xs -> fadd O inf (k a b) = inf.
  Proof. intros A B. destruct (Hk a b A B) as [F _]. destruct (k a b); try discriminate; reflexivity. Qed.
  Lemma pval_snoc l c j : pval (l ++ [c]) j = (pval l j + B2R (k (x j) (x c)))%R.
  Proof. unfold pval. rewrite map_app, Rsum_app. cbn. lra. Qed.

  Definition finv (t : nat) (s : @gstate flt) : Prop := exists l, length l = t /\ near_greedy cand score tol l /\
    g_idx s = map Z.of_nat l ++ repeat 0%Z (m - t) /\ g_size s = Z.of_nat t /\ fpen_ok l (g_pen s).
  Lemma fstep t s : t < m -> finv t s -> finv (S t) (greedy_body O p0 k xs dw cw sel unique ord t s).
  Proof.
    intros Ht (l & Hl & HG & HI & HS & HP). unfold greedy_body. rewrite cw_none. rewrite HS.
    assert (HiL : length (g_idx s) = m) by (rewrite HI, app_length, map_length, repeat_length; lia).
    assert (HR : forall i, In i l -> i < n) by (intros i Hi; destruct (near_in _ _ _ _ _ _ HG Hi) as [H _]; rewrite map_length in H; lia).
    pose proof (fvalid l (g_pen s) (g_idx s) t HiL HP) as HV.
    destruct (Hsel l _ ltac:(lia) HR HV (some_cand l ltac:(lia) HR)) as (r & Er & Cr & Mr).
    rewrite Hl in Er. rewrite Er.
    assert (Hr : r < n) by (destruct Cr as [C _]; rewrite map_length in C; lia).
    assert (JG : jget p0 xs (Z.of_nat r) = x r).
    { unfold jget, clamp. rewrite wrap_in_range by lia. f_equal. lia. }
    rewrite JG.
    exists (l ++ [r]). cbn [g_idx g_pen g_size]. split; [rewrite app_length; cbn; lia|]. split; [apply near_snoc; assumption|].
    split; [|split; [lia|]].
    - rewrite HI, map_app, <- app_assoc. cbn [map app]. replace (m - t) with (S (m - S t)) by lia. cbn [repeat].
      generalize (repeat 0%Z (m - S t)) as rp. intros rp. rewrite <- Hl, <- (map_length Z.of_nat l). generalize (map Z.of_nat l) as q. induction q as [|z q IH]; [reflexivity|]. cbn [length app upd]. now rewrite IH.
    - destruct HP as [PL HP].
      set (p' := map2 (fadd O) (g_pen s) (kcol k xs (x r))).
      assert (P'L : length p' = n) by (unfold p'; rewrite map2_length; unfold kcol; rewrite map_length; lia).
      assert (P'N : forall j, j < n -> nth j p' nan = fadd O (nth j (g_pen s) nan) (k (x j) (x r))).
      { intros j Hj. unfold p'. rewrite (nth_map2 _ _ _ _ nan nan) by (unfold kcol; rewrite ?map_length; lia). f_equal.
        unfold kcol. now rewrite (nth_map_lt _ xs j p0). }
      assert (P'A : forall j, j < n -> unique = false \/ ~ In j l -> apx (length (l ++ [r])) (nth j p' nan) (pval (l ++ [r]) j) (INR (length (l ++ [r])) * K)).
      { intros j Hj C. rewrite P'N by assumption. destruct (HP j Hj) as [_ H2]. specialize (H2 C).
        rewrite app_length, pval_snoc. cbn [length]. rewrite Nat.add_1_r. rewrite S_INR.
        replace ((INR (length l) + 1) * K)%R with (INR (length l) * K + K)%R by ring.
        destruct (Hk (x j) (x r)) as [FK BK]; [now apply nth_In|now apply nth_In|].
        apply apx_add; auto.
        - eapply apx_mono; [apply apx_exact; [exact FK|exact BK]|lia|lra].
        - replace (INR (length l) * K + K)%R with (INR (S (length l)) * K)%R by (rewrite S_INR; ring). apply Hbig. lia. }
      split; [destruct unique; [rewrite jset_length|]; exact P'L|]. intros j Hj. split.
      + intros U Hin. rewrite U. rewrite jset_in_range by (rewrite P'L; lia). rewrite Nat2Z.id.
        destruct (Nat.eq_dec j r) as [->|Hn].
        * apply nth_upd_eq. now rewrite P'L.
        * rewrite nth_upd_neq by assumption. rewrite P'N by assumption. destruct (HP j Hj) as [H1 _].
          apply in_app_or in Hin as [Hin|[Hin|[]]]; [|congruence]. rewrite (H1 U Hin). apply finf_add; now apply nth_In.
      + intros C. destruct unique eqn:U; [|apply P'A; auto].
        destruct C as [C|C]; [discriminate|]. rewrite in_app_iff in C. rewrite jset_in_range by (rewrite P'L; lia). rewrite Nat2Z.id.
        rewrite nth_upd_neq; [apply P'A; tauto|]. intros ->. apply C. right. now left.
  Qed.
  Lemma frun pen0 : fpen_ok [] pen0 -> finv m (fori m (greedy_body O p0 k xs dw cw sel unique ord) (mkG (repeat 0%Z m) pen0 0)).
  Proof.
    intros H0. assert (G : forall t, t <= m -> finv t (fori t (greedy_body O p0 k xs dw cw sel unique ord) (mkG (repeat 0%Z m) pen0 0))).
    { induction t as [|t IH]; intros Ht.
      - exists []. cbn [g_idx g_size g_pen map app length]. rewrite Nat.sub_0_r. repeat split; auto; try (intros; cbn in *; lia); try apply H0; auto.
      - rewrite fori_S. apply fstep; [lia|]. apply IH. lia. }
    apply G. lia.
  Qed.
End Loop.
