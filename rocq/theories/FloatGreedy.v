(** * KernelHerding and SteinThinning in floating point arithmetic: index-level properties *)
From Coq Require Import List ZArith Bool Reals Permutation Lia Lra.
From Coq Require Import Floats.SpecFloat.
From Flocq Require Import Core.Core IEEE754.BinarySingleNaN.
From Verif Require Import Num Jax RSum JaxFacts DataModel MeanModel MeanGeneric GreedyModel GreedyProofs LoopProofs
  SumSpec SumProofs Float FloatProofs2.
Import ListNotations.
Open Scope nat_scope.

Section Bounded.
  Context (prec emax : Z) {Hprec : Prec_gt_0 prec} {Hmax : Prec_lt_emax prec emax} {Sm : SumOrder prec emax}.
  Notation flt := (binary_float prec emax).
  Notation O := (FOpsIEEE prec emax).
  Notation rnd := (round radix2 (SpecFloat.fexp prec emax) (round_mode mode_NE)).
  Notation big := (bpow radix2 emax).

  (** finite and at most [t * 2^e] in absolute value *)
  Definition bd (e : Z) (t : nat) (v : flt) : Prop :=
    is_finite v = true /\ (Rabs (B2R v) <= IZR (Z.of_nat t) * bpow radix2 e)%R.

  Lemma bd_mono e t t' v : bd e t v -> t <= t' -> bd e t' v.
  Proof.
    intros [F L] H. split; auto. eapply Rle_trans; [exact L|]. apply Rmult_le_compat_r; [apply bpow_ge_0|]. apply IZR_le. lia.
  Qed.
  Lemma bd_inf e t s : ~ bd e t (B754_infinity s).
  Proof. intros [F _]. discriminate. Qed.
  Lemma bd_nan e t : ~ bd e t B754_nan.
  Proof. intros [F _]. discriminate. Qed.
  Lemma bd_zero e t s : bd e t (B754_zero s).
  Proof. split; auto. cbn. rewrite Rabs_R0. apply Rmult_le_pos; [apply IZR_le; lia|apply bpow_ge_0]. Qed.

  Section Unit.
    Variables e p : Z.
    Hypothesis Hp : (0 <= p <= prec)%Z.
    Hypothesis Hpe : (p + e <= emax)%Z.
    Hypothesis He : (3 - emax - prec <= e)%Z.
    Notation u := (bpow radix2 e).
    Notation lev t := (Z.of_nat t < 2 ^ p)%Z.

    Lemma rnd_bd t r : lev t -> (Rabs r <= IZR (Z.of_nat t) * u)%R ->
      (Rabs (rnd r) <= IZR (Z.of_nat t) * u)%R /\ (Rabs (rnd r) < big)%R.
    Proof.
      intros L H.
      assert (G : generic_format radix2 (SpecFloat.fexp prec emax) (IZR (Z.of_nat t) * u)).
      { change (SpecFloat.fexp prec emax) with (FLT_exp (3 - emax - prec) prec). apply generic_format_FLT.
        exists (Float radix2 (Z.of_nat t) e).
        - reflexivity.
        - cbn [Fnum]. rewrite Z.abs_eq by lia. eapply Z.lt_le_trans; [exact L|]. apply (Z.pow_le_mono_r 2); lia.
        - exact He. }
      assert (Q : (Rabs (rnd r) <= IZR (Z.of_nat t) * u)%R).
      { apply abs_round_le_generic; auto with typeclass_instances. apply fexp_correct; exact Hprec. }
      split; auto. eapply Rle_lt_trans; [exact Q|].
      apply Rlt_le_trans with (bpow radix2 p * u)%R.
      - apply Rmult_lt_compat_r; [apply bpow_gt_0|]. rewrite <- (IZR_Zpower radix2) by lia. apply IZR_lt. exact L.
      - rewrite <- bpow_plus. apply bpow_le. exact Hpe.
    Qed.
    Lemma bd_plus t s a b : bd e t a -> bd e s b -> lev (t + s) -> bd e (t + s) (Bplus mode_NE a b).
    Proof.
      intros [FA A] [FB B] L. destruct (rnd_bd (t + s) (B2R a + B2R b) L) as [R1 R2].
      - eapply Rle_trans; [apply Rabs_triang|]. rewrite Nat2Z.inj_add, plus_IZR. lra.
      - destruct (plus_cases prec emax a b FA FB) as [[R F]|(_ & _ & C)]; [|lra]. split; auto. now rewrite R.
    Qed.
    Lemma bd_opp t a : bd e t a -> bd e t (Bopp a).
    Proof. intros [F A]. split; [now rewrite is_finite_Bopp|]. now rewrite B2R_Bopp, Rabs_Ropp. Qed.
    Lemma bd_minus t s a b : bd e t a -> bd e s b -> lev (t + s) -> bd e (t + s) (Bminus mode_NE a b).
    Proof.
      intros [FA A] [FB B] L. destruct (rnd_bd (t + s) (B2R a - B2R b) L) as [R1 R2].
      - unfold Rminus. eapply Rle_trans; [apply Rabs_triang|]. rewrite Rabs_Ropp, Nat2Z.inj_add, plus_IZR. lra.
      - pose proof (Bminus_correct prec emax _ _ mode_NE a b FA FB) as C. rewrite Rlt_bool_true in C by assumption.
        destruct C as (C1 & C2 & _). split; auto. now rewrite C1.
    Qed.
    (** a product by a number of size at most [2^q], in a unit [2^q] times larger *)
    Lemma bd_mult q t a c : bd (e - q) t a -> is_finite c = true -> (Rabs (B2R c) <= bpow radix2 q)%R -> lev t ->
      bd e t (Bmult mode_NE c a).
    Proof.
      intros [FA A] FC C L. destruct (rnd_bd t (B2R c * B2R a) L) as [R1 R2].
      - rewrite Rabs_mult. replace (IZR (Z.of_nat t) * u)%R with (bpow radix2 q * (IZR (Z.of_nat t) * bpow radix2 (e - q)))%R.
        + apply Rmult_le_compat; auto using Rabs_pos.
        + replace u with (bpow radix2 q * bpow radix2 (e - q))%R; [ring|]. rewrite <- bpow_plus. f_equal. lia.
      - destruct (mult_cases prec emax c a FC FA) as [[R F]|(_ & X)]; [|lra]. split; auto. now rewrite R.
    Qed.
    Lemma bd_weight t a w : bd e t a -> upto prec emax 1 w -> lev t -> bd e t (Bmult mode_NE a w).
    Proof.
      intros [FA A] [FW W] L. destruct (rnd_bd t (B2R a * B2R w) L) as [R1 R2].
      - rewrite Rabs_mult. rewrite (Rabs_pos_eq (B2R w)) by lra. pose proof (Rabs_pos (B2R a)). nra.
      - destruct (mult_cases prec emax a w FA FW) as [[R F]|(_ & X)]; [|lra]. split; auto. now rewrite R.
    Qed.
    Lemma bd_div t a d : bd e t a -> is_finite d = true -> (1 <= B2R d)%R -> lev t -> bd e t (Bdiv mode_NE a d).
    Proof.
      intros [FA A] FD D L. destruct (rnd_bd t (B2R a / B2R d) L) as [R1 R2].
      - unfold Rdiv. rewrite Rabs_mult, Rabs_inv. rewrite (Rabs_pos_eq (B2R d)) by lra.
        assert (0 < / B2R d <= 1)%R. { split; [apply Rinv_0_lt_compat; lra|]. rewrite <- Rinv_1. apply Rinv_le_contravar; lra. }
        pose proof (Rabs_pos (B2R a)). nra.
      - destruct (div_cases prec emax a d FA) as [[R F]|(_ & X)]; [lra| |lra]. split; auto. now rewrite R.
    Qed.
    Lemma bd_sum {A} (f : A -> flt) (t : A -> nat) l : (forall a, In a l -> bd e (t a) (f a)) -> lev (list_sum (map t l)) ->
      bd e (list_sum (map t l)) (fsum O (map f l)).
    Proof.
      pose proof (sum_fun_ok (map f l)) as H. revert H. change (sum_fun (map f l)) with (fsum O (map f l)). generalize (fsum O (map f l)) as v. intros v H. revert l v H.
      apply (summed_map_ind _ _ f (fun l v => (forall a, In a l -> bd e (t a) (f a)) -> lev (list_sum (map t l)) -> bd e (list_sum (map t l)) v)).
      - intros _ _. apply bd_zero.
      - intros a H _. cbn. rewrite Nat.add_0_r. apply H. now left.
      - intros l1 l2 a b H1 H2 H L. rewrite map_app, list_sum_app in *. apply bd_plus; auto; [apply H1|apply H2]; try lia; intros c Hc; apply H; apply in_or_app; auto.
      - intros l l' v HP H HA L.
        assert (E : list_sum (map t l) = list_sum (map t l')).
        { clear - HP. unfold list_sum. induction HP; cbn [map fold_right]; lia. }
        rewrite <- E in *. apply H; auto. intros a Ha. apply HA. eapply Permutation_in; eauto.
    Qed.
    Lemma list_sum_ones {A} (l : list A) : list_sum (map (fun _ => 1) l) = length l.
    Proof. unfold list_sum. induction l as [|a l IH]; cbn [map fold_right length]; [reflexivity|]. now rewrite IH. Qed.
    Lemma bd_dot ks ws : Forall (bd e 1) ks -> Forall (upto prec emax 1) ws -> lev (length ks) -> (1 < 2 ^ p)%Z ->
      bd e (length ks) (fdot O ks ws).
    Proof.
      intros K W L P1. unfold fdot.
      assert (F : Forall (bd e 1) (map2 (fmul O) ks ws) /\ length (map2 (fmul O) ks ws) <= length ks).
      { clear L. revert ws W. induction K as [|a ks A K IH]; intros [|w ws] W; cbn [map2 length]; try (split; [constructor|lia]).
        inversion W; subst. destruct (IH ws) as [I1 I2]; auto. split; [|lia]. constructor; auto. now apply bd_weight. }
      destruct F as [F1 F2]. apply bd_mono with (length (map2 (fmul O) ks ws)); [|lia].
      rewrite <- (map_id (map2 (fmul O) ks ws)) at 2. rewrite <- list_sum_ones. rewrite Forall_forall in F1.
      apply (bd_sum (fun v => v) (fun _ => 1)); auto. rewrite list_sum_ones. lia.
    Qed.
    Lemma bd_rowsum {P} (k : P -> P -> flt) blocks x : (1 < 2 ^ p)%Z ->
      (forall a b, bd e 1 (k a b)) -> Forall (upto prec emax 1) (concat (map snd blocks)) ->
      lev (length (concat (map fst blocks))) ->
      bd e (length (concat (map fst blocks))) (browsum O k blocks x).
    Proof.
      intros P1 K W L. unfold browsum.
      assert (E : list_sum (map (fun b : list P * list flt => length (fst b)) blocks) = length (concat (map fst blocks))).
      { clear. unfold list_sum. induction blocks as [|b bl IH]; [reflexivity|]. cbn [map fold_right concat]. rewrite app_length. lia. }
      rewrite <- E in *. apply bd_sum; auto. intros [xb wb] Hb. cbn [fst]. unfold bdot. cbn [fst snd].
      assert (length xb <= list_sum (map (fun b : list P * list flt => length (fst b)) blocks)).
      { clear - Hb. unfold list_sum. induction blocks as [|b bl IH]; [destruct Hb|]. cbn [map fold_right]. destruct Hb as [->|Hb]; [cbn [fst]; lia|]. specialize (IH Hb). lia. }
      rewrite <- (map_length (k x) xb). apply bd_dot; auto.
      - apply Forall_forall. intros v Hv. apply in_map_iff in Hv as [b [<- _]]. apply K.
      - apply Forall_forall. intros v Hv. rewrite Forall_forall in W. apply W. apply in_concat. exists wb. split; auto. apply in_map_iff. now exists (xb, wb).
      - rewrite map_length. lia.
    Qed.
  End Unit.

  (** ** Normalised weights *)
  Definition wok (v : flt) : Prop := is_finite v = true /\ (0 <= B2R v)%R.
  Lemma sum_ge l : Forall wok l ->
    let s := fsum O l in
    nn prec emax s /\ (is_finite s = true -> forall v, In v l -> (B2R v <= B2R s)%R).
  Proof.
    cbv zeta. pose proof (sum_fun_ok l) as H. change (sum_fun l) with (fsum O l) in H. rewrite <- (map_id l) in H at 1. revert H. generalize (fsum O l) as s. intros s H. revert l s H.
    apply (summed_map_ind _ _ (fun v : flt => v) (fun l s => Forall wok l -> nn prec emax s /\ (is_finite s = true -> forall v, In v l -> (B2R v <= B2R s)%R))).
    - intros _. split; [exact I|]. intros _ v [].
    - intros a F. inversion F as [|? ? [FV PV] _]; subst. split; [now apply nn_finite|]. intros _ v [<-|[]]. lra.
    - intros l1 l2 a b H1 H2 F. apply Forall_app in F as [F1 F2]. destruct (H1 F1) as [N1 G1], (H2 F2) as [N2 G2].
      assert (N : nn prec emax (Bplus mode_NE a b)) by now apply nn_plus. split; auto. intros FS.
      assert (FA : is_finite a = true) by (destruct a, b; cbn in *; try discriminate; try contradiction; auto; subst; discriminate).
      assert (FB : is_finite b = true) by (destruct a, b; cbn in *; try discriminate; try contradiction; auto; subst; discriminate).
      pose proof N1 as P1. pose proof N2 as P2. apply nn_finite in P1, P2; auto.
      destruct (plus_cases prec emax a b FA FB) as [[R _]|(E & _)]; [|rewrite E in FS; discriminate].
      assert (L1 : (B2R a <= B2R (Bplus mode_NE a b))%R).
      { rewrite R. rewrite <- (rnd_id prec emax a) at 1. apply rnd_mono; auto. lra. }
      assert (L2 : (B2R b <= B2R (Bplus mode_NE a b))%R).
      { rewrite R. rewrite <- (rnd_id prec emax b) at 1. apply rnd_mono; auto. lra. }
      intros v Hv. apply in_app_or in Hv as [Hv|Hv]; [specialize (G1 FA v Hv)|specialize (G2 FB v Hv)]; lra.
    - intros l l' v HP H F. destruct H as [N G]; [eapply Permutation_Forall; [apply Permutation_sym; exact HP|exact F]|].
      split; auto. intros FS w Hw. apply G; auto. eapply Permutation_in; [apply Permutation_sym; exact HP|exact Hw].
  Qed.
  Lemma normalize_upto w : Forall wok w -> Forall (upto prec emax 1) (normalize_w O true w).
  Proof.
    intros F. unfold normalize_w. destruct (sum_ge w F) as [S1 S2]. cbv zeta in S1, S2. set (s := fsum O w) in *.
    apply Forall_forall. intros v Hv. apply in_map_iff in Hv as [q [<- Hq]]. apply in_map_iff in Hq as [a [<- Ha]].
    pose proof (proj1 (Forall_forall _ _) F a Ha) as [FA PA].
    assert (Z : forall b, upto prec emax 1 (B754_zero b)) by (intros b; split; cbn; auto; lra).
    destruct (is_finite s) eqn:FS.
    - pose proof (S2 eq_refl a Ha) as H3.
      destruct (Req_dec (B2R s) 0) as [E|E].
      + assert (B2R a = 0)%R by lra. cbn [fdiv FOpsIEEE fnan_to_num].
        assert (exists b, s = B754_zero b) as [b ->].
        { destruct s as [b| | |b m e Hb]; try discriminate; eauto. exfalso. destruct b; cbn in E.
          - pose proof (neg_lt0 m e). cbn in E. lra.
          - assert (0 < F2R (beta := radix2) {| Fnum := Z.pos m; Fexp := e |})%R by (apply F2R_gt_0; reflexivity). lra. }
        assert (exists b, a = B754_zero b) as [b' ->].
        { destruct a as [b'| | |b' m e Hb]; try discriminate; eauto. exfalso. destruct b'; cbn in H.
          - pose proof (neg_lt0 m e). cbn in H. lra.
          - assert (0 < F2R (beta := radix2) {| Fnum := Z.pos m; Fexp := e |})%R by (apply F2R_gt_0; reflexivity). lra. }
        cbn. apply Z.
      + apply nn_finite in S1; auto. assert (0 < B2R s)%R by lra.
        assert (Q : (0 <= B2R a / B2R s <= 1)%R).
        { split; [apply Rmult_le_pos; auto; left; now apply Rinv_0_lt_compat|]. apply Rmult_le_reg_r with (B2R s); auto. unfold Rdiv. rewrite Rmult_assoc, Rinv_l, Rmult_1_r; lra. }
        assert (Q1 : (0 <= rnd (B2R a / B2R s) <= 1)%R).
        { split; [now apply rnd_ge0|]. rewrite <- (rnd_1 prec emax). apply rnd_mono; auto. lra. }
        destruct (div_cases prec emax a s FA E) as [[R FR]|[_ C]].
        * cbn [fdiv FOpsIEEE fnan_to_num]. assert (E1 : Bnan_to_num prec emax (Bdiv mode_NE a s) = Bdiv mode_NE a s) by (destruct (Bdiv mode_NE a s); try discriminate; reflexivity).
          rewrite E1. split; auto. rewrite R. exact Q1.
        * exfalso. rewrite Rabs_pos_eq in C by lra. assert (1 < big)%R; [|lra]. apply (bpow_lt radix2 0). assert (0 < prec < emax)%Z by (split; assumption). lia.
    - destruct s as [| [] | |]; try discriminate; cbn in S1; try contradiction; try discriminate.
      destruct a; try discriminate; cbn; apply Z.
  Qed.
End Bounded.

(** ** Picking the largest or smallest entry *)
Section Pick.
  Context (prec emax : Z) {Hprec : Prec_gt_0 prec} {Hmax : Prec_lt_emax prec emax} {Sm : SumOrder prec emax}.
  Notation flt := (binary_float prec emax).
  Notation O := (FOpsIEEE prec emax).

  Lemma argbest_inv (better : flt -> flt -> bool) (Q : flt -> Prop) l pre bi :
    (forall x b, Q b -> In x (pre ++ l) -> better x b = true -> Q x) -> (forall x b, Q x -> ~ Q b -> In b (pre ++ l) -> better x b = true) ->
    (forall x, {Q x} + {~ Q x}) ->
    bi < length pre -> (Q (nth bi pre B754_nan) \/ Exists Q l) ->
    let r := argbest better l (length pre) bi (nth bi pre B754_nan) in r < length (pre ++ l) /\ Q (nth r (pre ++ l) B754_nan).
  Proof.
    intros H1 H2 D. revert pre bi H1 H2. induction l as [|x t IH]; intros pre bi H1 H2 Hb HQ; cbn [argbest].
    - rewrite app_nil_r. destruct HQ as [HQ|HQ]; [auto|inversion HQ].
    - assert (HL : length (pre ++ [x]) = S (length pre)) by (rewrite app_length; simpl; lia).
      assert (Hx : nth (length pre) (pre ++ [x]) B754_nan = x) by (rewrite app_nth2 by lia; now rewrite Nat.sub_diag).
      assert (Hp : nth bi (pre ++ [x]) B754_nan = nth bi pre B754_nan) by now rewrite app_nth1.
      destruct (better x (nth bi pre B754_nan)) eqn:E.
      + specialize (IH (pre ++ [x]) (length pre)). rewrite HL, Hx, <- app_assoc in IH. cbn [app] in IH. apply (IH H1 H2 ltac:(lia)).
        destruct HQ as [HQ|HQ]; [left; eapply H1; eauto; apply in_or_app; right; now left|]. apply Exists_cons in HQ. exact HQ.
      + specialize (IH (pre ++ [x]) bi). rewrite HL, Hp, <- app_assoc in IH. cbn [app] in IH. apply (IH H1 H2 ltac:(lia)).
        destruct HQ as [HQ|HQ]; auto. apply Exists_cons in HQ as [HQ|HQ]; auto.
        destruct (D (nth bi pre B754_nan)) as [|N]; auto. rewrite (H2 x _ HQ N) in E; [discriminate|]. apply in_or_app. left. now apply nth_In.
  Qed.
  Lemma argb_inv (better : flt -> flt -> bool) (Q : flt -> Prop) l :
    (forall x b, Q b -> In x l -> better x b = true -> Q x) -> (forall x b, Q x -> ~ Q b -> In b l -> better x b = true) ->
    (forall x, {Q x} + {~ Q x}) -> Exists Q l ->
    argb better l < length l /\ Q (nth (argb better l) l B754_nan).
  Proof.
    intros H1 H2 D HQ. destruct l as [|x t]; [inversion HQ|]. cbn [argb].
    apply (argbest_inv better Q t [x] 0); auto. apply Exists_cons in HQ. exact HQ.
  Qed.
  Lemma fin_dec (v : flt) : {is_finite v = true} + {~ is_finite v = true}.
  Proof. destruct (is_finite v); [left|right]; congruence. Qed.

  Lemma nanargmax_finite (l : list flt) :
    (forall v, In v l -> v = B754_nan \/ v = B754_infinity true \/ is_finite v = true) -> Exists (fun v => is_finite v = true) l ->
    exists r, nanargmax O l = Z.of_nat r /\ r < length l /\ is_finite (nth r l B754_nan) = true.
  Proof.
    intros H E. unfold nanargmax.
    replace (forallb (fisnan O) l) with false.
    2:{ symmetry. apply not_true_is_false. intros F. rewrite forallb_forall in F. apply Exists_exists in E as [v [I FV]].
        specialize (F v I). destruct v; discriminate. }
    set (f := fun v : flt => if fisnan O v then fninf O else v).
    assert (Hm : forall v, In v (map f l) -> v = B754_infinity true \/ is_finite v = true).
    { intros v Hv. apply in_map_iff in Hv as [w [<- Hw]]. unfold f. destruct (H w Hw) as [->|[->|F]]; cbn; auto.
      destruct w; try discriminate; cbn; auto. }
    destruct (argb_inv (gt_nan O) (fun v => is_finite v = true) (map f l)) as [R1 R2].
    - intros x b FB IX G. destruct (Hm x IX) as [->|F]; auto.
      destruct b as [[]|[]| |[] m e Hb]; try discriminate; discriminate G.
    - intros x b FX NB I. destruct (Hm b I) as [->|F]; [|contradiction]. destruct x as [[]|[]| |[] m e Hb]; try discriminate; reflexivity.
    - apply fin_dec.
    - apply Exists_exists in E as [v [I FV]]. apply Exists_exists. exists v. split; auto. apply in_map_iff. exists v. split; auto.
      unfold f. destruct v; try discriminate; reflexivity.
    - rewrite map_length in R1. exists (argmax O (map f l)). split; [reflexivity|]. split; [exact R1|].
      unfold argmax in *. rewrite (nth_map_lt f l _ B754_nan) in R2 by exact R1. unfold f in R2 at 1.
      destruct (nth (argb (gt_nan O) (map f l)) l B754_nan); cbn in R2; auto; discriminate.
  Qed.
  Lemma nanargmin_finite (l : list flt) :
    (forall v, In v l -> v = B754_nan \/ v = B754_infinity false \/ is_finite v = true) -> Exists (fun v => is_finite v = true) l ->
    exists r, nanargmin O l = Z.of_nat r /\ r < length l /\ is_finite (nth r l B754_nan) = true.
  Proof.
    intros H E. unfold nanargmin.
    replace (forallb (fisnan O) l) with false.
    2:{ symmetry. apply not_true_is_false. intros F. rewrite forallb_forall in F. apply Exists_exists in E as [v [I FV]].
        specialize (F v I). destruct v; discriminate. }
    set (f := fun v : flt => if fisnan O v then finf O else v).
    assert (Hm : forall v, In v (map f l) -> v = B754_infinity false \/ is_finite v = true).
    { intros v Hv. apply in_map_iff in Hv as [w [<- Hw]]. unfold f. destruct (H w Hw) as [->|[->|F]]; cbn; auto.
      destruct w; try discriminate; cbn; auto. }
    destruct (argb_inv (lt_nan O) (fun v => is_finite v = true) (map f l)) as [R1 R2].
    - intros x b FB IX G. destruct (Hm x IX) as [->|F]; auto.
      destruct b as [[]|[]| |[] m e Hb]; try discriminate; discriminate G.
    - intros x b FX NB I. destruct (Hm b I) as [->|F]; [|contradiction]. destruct x as [[]|[]| |[] m e Hb]; try discriminate; reflexivity.
    - apply fin_dec.
    - apply Exists_exists in E as [v [I FV]]. apply Exists_exists. exists v. split; auto. apply in_map_iff. exists v. split; auto.
      unfold f. destruct v; try discriminate; reflexivity.
    - rewrite map_length in R1. exists (argmin O (map f l)). split; [reflexivity|]. split; [exact R1|].
      unfold argmin in *. rewrite (nth_map_lt f l _ B754_nan) in R2 by exact R1. unfold f in R2 at 1.
      destruct (nth (argb (lt_nan O) (map f l)) l B754_nan); cbn in R2; auto; discriminate.
  Qed.
End Pick.
