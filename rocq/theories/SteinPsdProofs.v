(** * Stein kernels are positive semi-definite: limits of difference quotients *)
From Coq Require Import List ZArith Reals Lia Lra.
From Coquelicot Require Import Coquelicot.
From Verif Require Import Num Jax RSum MetricSpec MetricProofs CholSpec CholProofs2 KernelModel KernelSpec KernelProofs KernelProofs2 KernelProofs3
  MetricProofs2 KernelProofs7 KernelProofs8 PsdSpec PsdProofs PsdProofs4 PsdProofs5.
Import ListNotations.
Open Scope R_scope.

(** ** The mixed second difference quotient *)
Definition step (n : nat) : R := / INR (S n).
Lemma step_pos n : 0 < step n.
Proof. apply Rinv_0_lt_compat, lt_0_INR. lia. Qed.
Lemma step_lim : is_lim_seq step 0.
Proof.
  unfold step. assert (H : is_lim_seq (fun n => INR (S n)) p_infty) by (apply -> (is_lim_seq_incr_1 INR); apply is_lim_seq_INR).
  apply (is_lim_seq_inv _ p_infty) in H; [exact H|discriminate].
Qed.
Lemma derive_cont (f : R -> R) t (l : R) : is_derive f t l -> continuity_pt f t.
Proof. intro H. apply continuity_pt_filterlim. apply (@ex_derive_continuous R_AbsRing R_NormedModule f t). now exists l. Qed.
Lemma mean_value (f df : R -> R) a h : 0 < h -> (forall t, is_derive f t (df t)) ->
  exists c, a <= c <= a + h /\ f (a + h) - f a = df c * h.
Proof.
  intros Hh D. destruct (MVT_gen f a (a + h) df) as (c & Hc & E).
  - intros. apply D. - intros. eapply derive_cont. apply D.
  - exists c. rewrite Rmin_left, Rmax_right in Hc by lra. split; auto. rewrite E. f_equal. ring.
Qed.
Lemma second_difference (F Fy Fxy : R -> R -> R) a b :
  (forall t u, is_derive (F t) u (Fy t u)) -> (forall t u, is_derive (fun t => Fy t u) t (Fxy t u)) ->
  continuity_2d_pt Fxy a b ->
  is_lim_seq (fun n => (F (a + step n) (b + step n) - F (a + step n) b - F a (b + step n) + F a b) / step n ^ 2) (Fxy a b).
Proof.
  intros D1 D2 C. apply is_lim_seq_spec. intro eps. destruct (C eps) as [del Hd].
  assert (L := step_lim). apply is_lim_seq_spec in L. destruct (L del) as [N HN]. exists N. intros n Hn.
  specialize (HN n Hn). assert (P := step_pos n). set (h := step n) in *. rewrite Rminus_0_r, Rabs_pos_eq in HN by lra.
  destruct (mean_value (fun u => F (a + h) u - F a u) (fun u => Fy (a + h) u - Fy a u) b h P) as (e & He & E1).
  { intro u. apply (is_derive_minus (F (a + h)) (F a)); apply D1. }
  destruct (mean_value (fun t => Fy t e) (fun t => Fxy t e) a h P (fun t => D2 t e)) as (x & Hx & E2).
  replace ((F (a + h) (b + h) - F (a + h) b - F a (b + h) + F a b) / h ^ 2) with (Fxy x e).
  - apply Hd; rewrite Rabs_pos_eq; lra.
  - cbv beta in E1. rewrite E2 in E1. replace (F (a + h) (b + h) - F (a + h) b - F a (b + h) + F a b) with (Fxy x e * h * h) by lra.
    field. lra.
Qed.
Lemma first_difference (f : R -> R) a (l : R) : is_derive f a l -> is_lim_seq (fun n => (f (a + step n) - f a) / step n) l.
Proof.
  intro H. apply is_lim_seq_spec. intro eps. apply is_derive_Reals in H. destruct (H eps (cond_pos eps)) as [del Hd].
  assert (L := step_lim). apply is_lim_seq_spec in L. destruct (L del) as [N HN]. exists N. intros n Hn.
  specialize (HN n Hn). assert (P := step_pos n). rewrite Rminus_0_r in HN. apply Hd; auto. lra.
Qed.

(** ** Apply "difference quotient plus a multiple of the identity" to both arguments *)
Section Operator.
  Context {P : Type}.
  Variables (tau : P -> P) (al be : P -> R) (k : P -> P -> R).
  Definition op_kernel (p q : P) : R :=
    al p * al q * k (tau p) (tau q) + al p * be q * k (tau p) q + be p * al q * k p (tau q) + be p * be q * k p q.
  Definition op_mass (ms : list (P * R)) : list (P * R) :=
    map (fun m => (tau (fst m), al (fst m) * snd m)) ms ++ map (fun m => (fst m, be (fst m) * snd m)) ms.
  Lemma lin_op ms f : lin (op_mass ms) f = lin ms (fun p => al p * f (tau p) + be p * f p).
  Proof.
    unfold op_mass, lin. rewrite map_app, Rsum_app, !map_map. cbn [fst snd].
    rewrite <- Rsum_map_add. apply Rsum_map_ext. intros. ring.
  Qed.
  Lemma psd_op : psd k -> psd op_kernel.
  Proof.
    intros [S H]. split.
    - intros p q. unfold op_kernel. rewrite (S (tau p) (tau q)), (S (tau p) q), (S p (tau q)), (S p q). ring.
    - intro ms. replace (bil op_kernel ms ms) with (bil k (op_mass ms) (op_mass ms)); [apply H|].
      rewrite !bil_lin, lin_op. apply lin_ext. intro p. rewrite !lin_op.
      rewrite <- !lin_mul, <- lin_add. apply lin_ext. intro q. unfold op_kernel. ring.
  Qed.
End Operator.

(** ** Kernel values and derivatives are jointly continuous *)
Lemma sqdist_both i x y t u : length x = length y -> (i < length x)%nat ->
  sqdist (set_coord i x t) (set_coord i y u) = (sqdist x y - (nth i x 0 - nth i y 0) ^ 2) + (t - u) * (t - u).
Proof.
  intros L I. rewrite sqdist_set by (rewrite ?set_len; auto). rewrite sqdist_set_y by auto. rewrite nth_set by lia. ring.
Qed.
Lemma Rdot_both i x y t u : length x = length y -> (i < length x)%nat ->
  Rdot (set_coord i x t) (set_coord i y u) = (Rdot x y - nth i x 0 * nth i y 0) + t * u.
Proof.
  intros L I. rewrite Rdot_set by (rewrite ?set_len; auto). rewrite Rdot_set_y by auto. rewrite nth_set by lia. ring.
Qed.

Section Joint.
  Variables (x y : list R) (i : nat).
  Hypothesis L : length x = length y.
  Hypothesis I : (i < length x)%nat.
  Definition jc (f : list R -> list R -> R) : Prop :=
    continuity_2d_pt (fun t u => f (set_coord i x t) (set_coord i y u)) (nth i x 0) (nth i y 0).
  Lemma jc_const c : jc (fun _ _ => c). Proof. exact (continuity_2d_pt_const _ _ c). Qed.
  Lemma jc_x : jc (fun x _ => nth i x 0).
  Proof. apply continuity_2d_pt_ext with (fun t _ => t); [intros; now rewrite nth_set|apply continuity_2d_pt_id1]. Qed.
  Lemma jc_y : jc (fun _ y => nth i y 0).
  Proof. apply continuity_2d_pt_ext with (fun _ u => u); [intros; rewrite nth_set; auto; lia|apply continuity_2d_pt_id2]. Qed.
  Lemma jc_plus f g : jc f -> jc g -> jc (fun x y => f x y + g x y). Proof. intros A B. exact (continuity_2d_pt_plus _ _ _ _ A B). Qed.
  Lemma jc_minus f g : jc f -> jc g -> jc (fun x y => f x y - g x y). Proof. intros A B. exact (continuity_2d_pt_minus _ _ _ _ A B). Qed.
  Lemma jc_mult f g : jc f -> jc g -> jc (fun x y => f x y * g x y). Proof. intros A B. exact (continuity_2d_pt_mult _ _ _ _ A B). Qed.
  Lemma jc_opp f : jc f -> jc (fun x y => - f x y). Proof. intro A. exact (continuity_2d_pt_opp _ _ _ A). Qed.
  Lemma jc_inv f : jc f -> f x y <> 0 -> jc (fun x y => / f x y).
  Proof. intros A B. apply (continuity_2d_pt_inv (fun t u => f (set_coord i x t) (set_coord i y u))); auto. now rewrite !set_same. Qed.
  Lemma jc_comp (f : R -> R) g : jc g -> continuity_pt f (g x y) -> jc (fun x y => f (g x y)).
  Proof.
    intros G F. apply (continuity_1d_2d_pt_comp f (fun t u => g (set_coord i x t) (set_coord i y u))); auto. now rewrite !set_same.
  Qed.
  Lemma jc_pow f n : jc f -> jc (fun x y => f x y ^ n).
  Proof. intro F. apply (jc_comp (fun v => v ^ n)); auto. apply derivable_continuous_pt, derivable_pt_pow. Qed.
  Lemma jc_sq : jc (fun x y => sqdist x y).
  Proof.
    apply continuity_2d_pt_ext with (fun t u => (sqdist x y - (nth i x 0 - nth i y 0) ^ 2) + (t - u) * (t - u)).
    { intros. now rewrite sqdist_both. }
    apply continuity_2d_pt_plus; [apply continuity_2d_pt_const|].
    apply continuity_2d_pt_mult; apply continuity_2d_pt_minus; apply continuity_2d_pt_id1 || apply continuity_2d_pt_id2.
  Qed.
  Lemma jc_dot : jc (fun x y => Rdot x y).
  Proof.
    apply continuity_2d_pt_ext with (fun t u => (Rdot x y - nth i x 0 * nth i y 0) + t * u).
    { intros. now rewrite Rdot_both. }
    apply continuity_2d_pt_plus; [apply continuity_2d_pt_const|].
    apply continuity_2d_pt_mult; apply continuity_2d_pt_id1 || apply continuity_2d_pt_id2.
  Qed.
  Lemma jc_radial k : radial k -> closed_form k -> (match k with KExp _ _ | KPer _ _ _ => False | _ => True end) ->
    jc (fun x y => phi k (sqdist x y)) /\ jc (fun x y => phi1 k (sqdist x y)) /\ jc (fun x y => phi2 k (sqdist x y)).
  Proof.
    intros Rk C E. assert (N := sqdist_nonneg x y).
    assert (D : phi_dom k (sqdist x y)) by (destruct k; try contradiction; cbn; auto).
    repeat split.
    - apply (jc_comp (phi k)); [apply jc_sq|]. eapply derive_cont. apply phi_d1; auto.
    - apply (jc_comp (phi1 k)); [apply jc_sq|]. eapply derive_cont. apply phi_d2; auto.
    - apply (jc_comp (phi2 k)); [apply jc_sq|]. set (s := sqdist x y) in *.
      destruct k; try contradiction; inversion C; subst; cbn [documented_params phi2] in *.
      + eapply (derive_cont (phi2 (KSE len scale)) s). cbn [phi2].
        apply is_derive_scal_R. apply (is_derive_comp_R exp (fun t => - (t / (2 * len ^ 2)))).
        * apply is_derive_exp.
        * instantiate (1 := - / (2 * len ^ 2)). auto_derive; auto. field. lra.
      + assert (B := body_pos s (2 * len ^ 2) N ltac:(apply Rmult_lt_0_compat; [lra|apply pow_lt; lra])).
        assert (0 < sqrt (1 + s / (2 * len ^ 2))) by (apply sqrt_lt_R0; auto).
        assert (X : ex_derive (fun s => 3 * scale / (4 * (2 * len ^ 2) ^ 2) / sqrt (1 + s / (2 * len ^ 2)) ^ 5) s).
        { auto_derive. split; [exact B|split; [|auto]]. apply Rgt_not_eq. repeat apply Rmult_lt_0_compat; try exact H; lra. }
        destruct X as [l X]. exact (derive_cont _ _ _ X).
      + assert (B := body_pos s (2 * rw * len ^ 2) N ltac:(repeat apply Rmult_lt_0_compat; try lra)).
        eapply (derive_cont (phi2 (KRQ len scale rw)) s). cbn [phi2].
        apply is_derive_scal_R. apply (is_derive_comp_R (fun v => Rpower v (- rw - 1 - 1)) (fun t => 1 + t / (2 * rw * len ^ 2))).
        * apply Rpower_d; auto.
        * instantiate (1 := / (2 * rw * len ^ 2)). auto_derive; auto. field. lra.
  Qed.
  (** smooth everywhere *)
  Definition smooth_everywhere (d : nat) (k : kern R) : Prop :=
    forall x y, length x = d -> length y = d -> smooth_at k x y.
  Lemma jc_all k : closed_form k -> smooth_everywhere (length x) k ->
    jc (kfun k) /\ jc (fun x y => GX k x y i) /\ jc (fun x y => GY k x y i) /\ jc (fun x y => MX k x y i).
  Proof.
    assert (Rad : forall k, radial k -> closed_form k -> smooth_everywhere (length x) k ->
      jc (kfun k) /\ jc (fun x y => GX k x y i) /\ jc (fun x y => GY k x y i) /\ jc (fun x y => MX k x y i)).
    { intros k0 Rk C S. destruct (jc_radial k0 Rk C) as (A0 & A1 & A2).
      { assert (Z := S x x eq_refl eq_refl). destruct k0; cbn in *; auto; now apply Z. }
      assert (Dl : jc (fun x y => nth i x 0 - nth i y 0)) by (apply jc_minus; [apply jc_x|apply jc_y]).
      split; [|split; [|split]].
      - destruct k0; try contradiction; exact A0.
      - assert (J : jc (fun x y => 2 * (nth i x 0 - nth i y 0) * phi1 k0 (sqdist x y)))
          by (repeat apply jc_mult; auto using jc_const). destruct k0; try contradiction; exact J.
      - assert (J : jc (fun x y => - (2 * (nth i x 0 - nth i y 0)) * phi1 k0 (sqdist x y)))
          by (apply jc_mult; auto; apply jc_opp, jc_mult; auto using jc_const). destruct k0; try contradiction; exact J.
      - assert (J : jc (fun x y => - 2 * phi1 k0 (sqdist x y) - 4 * (nth i x 0 - nth i y 0) ^ 2 * phi2 k0 (sqdist x y)))
          by (apply jc_minus; repeat apply jc_mult; auto using jc_const, jc_pow). destruct k0; try contradiction; exact J. }
    intros C. induction C; intro S; try (apply Rad; [exact Logic.I|constructor; assumption|exact S]); clear Rad; cbn [kfun GX GY MX].
    - repeat split; auto using jc_plus, jc_mult, jc_const, jc_x, jc_y, jc_dot.
    - assert (J : forall n, jc (fun x y => (Rdot x y + c) ^ n)) by (intro; apply jc_pow, jc_plus; [apply jc_dot|apply jc_const]).
      repeat split; auto 20 using jc_plus, jc_mult, jc_const, jc_x, jc_y, jc_dot, jc_pow.
    - exfalso. specialize (S x x eq_refl eq_refl i I). auto.
    - (* Poisson *)
      cbn [documented_params] in H. assert (L1 : length x = 1%nat) by exact (S x x eq_refl eq_refl).
      assert (Hi : i = 0%nat) by lia.
      assert (Dl : jc (fun x y => nth i x 0 - nth i y 0)) by (apply jc_minus; [apply jc_x|apply jc_y]).
      assert (Pd : jc (fun x y => poisson_den r (nth i x 0 - nth i y 0))).
      { unfold poisson_den. apply jc_plus; [|apply jc_const]. apply jc_minus; [apply jc_const|]. apply jc_mult; [apply jc_const|].
        apply (jc_comp cos); auto. apply continuity_cos. }
      assert (PN : forall n, poisson_den r (nth i x 0 - nth i y 0) ^ n <> 0).
      { intro. apply pow_nonzero. assert (Z := poisson_den_pos r (nth i x 0 - nth i y 0) ltac:(tauto)). lra. }
      assert (Sn : jc (fun x y => sin (nth i x 0 - nth i y 0))) by (apply (jc_comp sin); auto; apply continuity_sin).
      assert (Cn : jc (fun x y => cos (nth i x 0 - nth i y 0))) by (apply (jc_comp cos); auto; apply continuity_cos).
      unfold Rdiv. repeat split.
      + apply continuity_2d_pt_ext with (fun t u => s * / poisson_den r (nth i (set_coord i x t) 0 - nth i (set_coord i y u) 0)).
        { intros t u. destruct (one_dim x y L1 L) as (a & b & Ex & Ey). rewrite Ex, Ey, Hi. cbn -[kfun]. symmetry. apply poisson_one. }
        change (jc (fun x y => s * / poisson_den r (nth i x 0 - nth i y 0))).
        apply jc_mult; [apply jc_const|]. apply jc_inv; auto. specialize (PN 1%nat). now rewrite pow_1 in PN.
      + apply jc_opp. apply jc_mult; [apply jc_mult; auto using jc_const|]. apply (jc_inv (fun x y => poisson_den r (nth i x 0 - nth i y 0) ^ 2)); auto using jc_pow.
      + apply jc_mult; [apply jc_mult; auto using jc_const|]. apply (jc_inv (fun x y => poisson_den r (nth i x 0 - nth i y 0) ^ 2)); auto using jc_pow.
      + apply jc_minus; (apply jc_mult; [apply jc_mult; auto using jc_const, jc_pow|]).
        * apply (jc_inv (fun x y => poisson_den r (nth i x 0 - nth i y 0) ^ 2)); auto using jc_pow.
        * apply (jc_inv (fun x y => poisson_den r (nth i x 0 - nth i y 0) ^ 3)); auto using jc_pow.
    - destruct (IHC1 (fun a b p q => proj1 (S a b p q))) as (A1 & A2 & A3 & A4).
      destruct (IHC2 (fun a b p q => proj2 (S a b p q))) as (B1 & B2 & B3 & B4). repeat split; auto using jc_plus.
    - destruct (IHC (fun a b p q => proj1 (S a b p q))) as (A1 & A2 & A3 & A4). repeat split; auto using jc_plus, jc_const.
    - destruct (IHC1 (fun a b p q => proj1 (S a b p q))) as (A1 & A2 & A3 & A4).
      destruct (IHC2 (fun a b p q => proj2 (S a b p q))) as (B1 & B2 & B3 & B4). repeat split; auto 20 using jc_plus, jc_mult.
    - destruct (IHC (fun a b p q => proj1 (S a b p q))) as (A1 & A2 & A3 & A4). repeat split; auto 20 using jc_plus, jc_const, jc_mult.
    - destruct (IHC (fun a b p q => S a b p q)) as (A1 & A2 & A3 & A4). repeat split; auto 20 using jc_plus, jc_const, jc_mult, jc_pow.
  Qed.
End Joint.

(** ** One coordinate of the Stein kernel *)
Lemma upd_upd (x : list R) i t u : set_coord i (set_coord i x t) u = set_coord i x u.
Proof. revert i. induction x as [|a x IH]; intros [|i]; cbn; auto. unfold set_coord in *. cbn. f_equal. apply IH. Qed.
Definition shift {d} (i : nat) (h : R) (p : point d) : point d :=
  exist _ (set_coord i (pt p) (nth i (pt p) 0 + h)) (eq_trans (set_len i (pt p) _) (pt_len p)).
Lemma pt_shift {d} i h (p : point d) : pt (shift i h p) = set_coord i (pt p) (nth i (pt p) 0 + h).
Proof. reflexivity. Qed.
Lemma psd_coordinate d k (s : list R -> R) i : closed_form k -> smooth_everywhere d k -> (i < d)%nat ->
  psd (fun p q : point d => kfun k (pt p) (pt q)) ->
  psd (fun p q : point d => MX k (pt p) (pt q) i + GX k (pt p) (pt q) i * s (pt q) + GY k (pt p) (pt q) i * s (pt p)
    + s (pt p) * s (pt q) * kfun k (pt p) (pt q)).
Proof.
  intros C S I K.
  apply psd_lim with (fun n => op_kernel (shift i (step n)) (fun _ => / step n) (fun p => - / step n + s (pt p)) (fun p q : point d => kfun k (pt p) (pt q))).
  { intro n. now apply psd_op. }
  intros p q. assert (Lp := pt_len p). assert (Lq := pt_len q). set (x := pt p) in *. set (y := pt q) in *.
  set (a := nth i x 0). set (b := nth i y 0).
  set (F := fun t u => kfun k (set_coord i x t) (set_coord i y u)).
  assert (D : forall t u, has_derivatives k (set_coord i x t) (set_coord i y u) i).
  { intros. apply kernel_derivatives; rewrite ?set_len; auto; try lia. apply S; rewrite set_len; auto. }
  assert (Y : forall t u, is_derive (F t) u (GY k (set_coord i x t) (set_coord i y u) i)).
  { intros t u. destruct (D t u) as (_ & H & _). rewrite nth_set in H by lia.
    eapply is_derive_ext; [|exact H]. intro v. unfold F. now rewrite upd_upd. }
  assert (X : forall t u, is_derive (fun t => F t u) t (GX k (set_coord i x t) (set_coord i y u) i)).
  { intros t u. destruct (D t u) as (H & _ & _). rewrite nth_set in H by lia.
    eapply is_derive_ext; [|exact H]. intro v. unfold F. now rewrite upd_upd. }
  assert (M : forall t u, is_derive (fun t => GY k (set_coord i x t) (set_coord i y u) i) t (MX k (set_coord i x t) (set_coord i y u) i)).
  { intros t u. destruct (D t u) as (_ & _ & H). rewrite nth_set in H by lia.
    eapply is_derive_ext; [|exact H]. intro v. cbv beta. now rewrite upd_upd. }
  destruct (jc_all x y i ltac:(congruence) ltac:(lia) k C ltac:(now rewrite Lp)) as (_ & _ & _ & J).
  assert (L2 := second_difference F _ _ a b Y M J). cbv beta in L2.
  assert (L1x := first_difference (fun t => F t b) a _ (X a b)).
  assert (L1y := first_difference (fun u => F a u) b _ (Y a b)). cbv beta in L1x, L1y.
  assert (E0 : F a b = kfun k x y) by (unfold F, a, b; now rewrite !set_same).
  unfold a, b in L2, L1x, L1y. rewrite !set_same in L2, L1x, L1y. fold a b in L2, L1x, L1y.
  rewrite <- E0.
  eapply is_lim_seq_ext; [|apply is_lim_seq_plus'; [apply is_lim_seq_plus'; [apply is_lim_seq_plus'; [exact L2|]|]|apply is_lim_seq_const]].
  2: { apply is_lim_seq_mult'; [exact L1x|apply (is_lim_seq_const (s y))]. }
  2: { apply is_lim_seq_mult'; [exact L1y|apply (is_lim_seq_const (s x))]. }
  intro n. cbv beta. assert (P := step_pos n). unfold op_kernel. rewrite !pt_shift. fold x y a b.
  assert (Ex : forall h, kfun k (set_coord i x (a + h)) y = F (a + h) b) by (intro; unfold F, b; now rewrite set_same).
  assert (Ey : forall h, kfun k x (set_coord i y (b + h)) = F a (b + h)) by (intro; unfold F, a; now rewrite set_same).
  rewrite Ex, Ey, <- E0. fold (F (a + step n) (b + step n)). field. lra.
Qed.
Lemma psd_stein d k score : closed_form k -> smooth_everywhere d k ->
  (forall x, length x = d -> length (score x) = d) ->
  psd (fun p q : point d => kfun k (pt p) (pt q)) ->
  psd (fun p q : point d => stein_real k score (pt p) (pt q)).
Proof.
  intros C S LS K.
  apply psd_ext with (fun p q : point d => Rsum (map (fun g => g p q) (map (fun i (p q : point d) =>
    MX k (pt p) (pt q) i + GX k (pt p) (pt q) i * nth i (score (pt q)) 0 + GY k (pt p) (pt q) i * nth i (score (pt p)) 0
    + nth i (score (pt p)) 0 * nth i (score (pt q)) 0 * kfun k (pt p) (pt q)) (seq 0 d)))).
  - intros p q. rewrite map_map. unfold stein_real. rewrite (pt_len p).
    rewrite (Rdot_seq d) by (apply LS, pt_len). rewrite <- Rsum_map_scal, <- !Rsum_map_add.
    apply Rsum_map_ext. intros. ring.
  - apply psd_sum. intros g Hg. apply in_map_iff in Hg as (i & <- & Hi). apply in_seq in Hi.
    apply (psd_coordinate d k (fun x => nth i (score x) 0) i); auto. lia.
Qed.
Lemma smooth_one_dim d k : closed_form k -> smooth_everywhere d k -> one_dim_ok d k.
Proof.
  intros C. induction C; intro S; cbn [one_dim_ok]; auto.
  - exfalso. assert (Z := S (repeat 0 d) (repeat 0 d) (repeat_length _ _) (repeat_length _ _)). now apply Z.
  - assert (Z := S (repeat 0 d) (repeat 0 d) (repeat_length _ _) (repeat_length _ _)). cbn in Z. now rewrite repeat_length in Z.
  - split; [apply IHC1|apply IHC2]; intros x y Hx Hy; apply (S x y Hx Hy).
  - split; [apply IHC|exact Logic.I]; intros x y Hx Hy; apply (S x y Hx Hy).
  - split; [apply IHC1|apply IHC2]; intros x y Hx Hy; apply (S x y Hx Hy).
  - split; [apply IHC|exact Logic.I]; intros x y Hx Hy; apply (S x y Hx Hy).
Qed.
