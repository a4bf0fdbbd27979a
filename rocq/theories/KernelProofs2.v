(** * Derivatives of the documented kernel formulas, kernel by kernel *)
From Coq Require Import List ZArith Reals Lia Lra.
From Coquelicot Require Import Coquelicot.
From Verif Require Import Num Jax RSum JaxFacts KernelModel KernelSpec KernelProofs.
Import ListNotations.
Open Scope R_scope.

Lemma is_derive_comp_R (f g : R -> R) (x df dg : R) : is_derive f (g x) df -> is_derive g x dg ->
  is_derive (fun t => f (g t)) x (dg * df).
Proof. intros. apply (is_derive_comp f g x df dg); auto. Qed.
Lemma is_derive_eq (f : R -> R) (x l l' : R) : is_derive f x l -> l = l' -> is_derive f x l'.
Proof. now intros H <-. Qed.
Lemma is_derive_mult_R (f g : R -> R) (x df dg : R) : is_derive f x df -> is_derive g x dg ->
  is_derive (fun t => f t * g t) x (df * g x + f x * dg).
Proof. intros. apply (is_derive_mult f g x df dg); auto. intros; apply Rmult_comm. Qed.
Lemma is_derive_plus_R (f g : R -> R) (x df dg : R) : is_derive f x df -> is_derive g x dg ->
  is_derive (fun t => f t + g t) x (df + dg).
Proof. intros. apply (is_derive_plus f g x df dg); auto. Qed.
Lemma is_derive_pow_R (f : R -> R) n (x df : R) : is_derive f x df ->
  is_derive (fun t => f t ^ n) x (INR n * df * f x ^ (n - 1)).
Proof.
  intros. replace (n - 1)%nat with (Nat.pred n) by lia. apply (is_derive_pow f n x df); auto.
Qed.
Lemma is_derive_scal_R (f : R -> R) (c x df : R) : is_derive f x df -> is_derive (fun t => c * f t) x (c * df).
Proof. intros. apply (is_derive_scal f x c df); auto. Qed.

Section Radial.
  Variables (phi phi1 phi2 : R -> R).
  Variables (x y : list R) (i : nat).
  Hypothesis L : length x = length y.
  Hypothesis I : (i < length x)%nat.
  Let s := sqdist x y.
  Let del := nth i x 0 - nth i y 0.
  Lemma rad_sx : is_derive (fun t => sqdist (set_coord i x t) y) (nth i x 0) (2 * del).
  Proof.
    eapply is_derive_ext. { intro t. symmetry. apply sqdist_set; auto. }
    auto_derive; auto. unfold del. ring.
  Qed.
  Lemma rad_sy : is_derive (fun u => sqdist x (set_coord i y u)) (nth i y 0) (- (2 * del)).
  Proof.
    eapply is_derive_ext. { intro t. symmetry. apply sqdist_set_y; auto. }
    auto_derive; auto. unfold del. ring.
  Qed.
  Hypothesis H1 : is_derive phi s (phi1 s).
  Hypothesis H2 : is_derive phi1 s (phi2 s).
  Lemma rad_x : is_derive (fun t => phi (sqdist (set_coord i x t) y)) (nth i x 0) (2 * del * phi1 s).
  Proof.
    apply (is_derive_comp_R phi (fun t => sqdist (set_coord i x t) y)).
    - now rewrite set_same. - apply rad_sx.
  Qed.
  Lemma rad_y : is_derive (fun u => phi (sqdist x (set_coord i y u))) (nth i y 0) (- (2 * del) * phi1 s).
  Proof.
    apply (is_derive_comp_R phi (fun t => sqdist x (set_coord i y t))).
    - now rewrite set_same. - apply rad_sy.
  Qed.
  Lemma rad_m : is_derive (fun t => - (2 * (nth i (set_coord i x t) 0 - nth i y 0)) * phi1 (sqdist (set_coord i x t) y))
    (nth i x 0) (- 2 * phi1 s - 4 * del ^ 2 * phi2 s).
  Proof.
    apply is_derive_ext with (fun t => - (2 * (t - nth i y 0)) * phi1 (sqdist (set_coord i x t) y)). { intro t. now rewrite nth_set. }
    eapply is_derive_eq.
    - apply (is_derive_mult_R (fun t => - (2 * (t - nth i y 0))) (fun t => phi1 (sqdist (set_coord i x t) y))).
      + instantiate (1 := -2). auto_derive; auto. ring.
      + apply (is_derive_comp_R phi1 (fun t => sqdist (set_coord i x t) y)); [rewrite set_same; exact H2 | apply rad_sx].
    - cbv beta. rewrite set_same. unfold s, del. ring.
  Qed.
End Radial.

Section Dot.
  Variables (phi phi1 phi2 : R -> R).
  Variables (x y : list R) (i : nat).
  Hypothesis L : length x = length y.
  Hypothesis I : (i < length x)%nat.
  Let s := Rdot x y.
  Lemma dot_sx : is_derive (fun t => Rdot (set_coord i x t) y) (nth i x 0) (nth i y 0).
  Proof.
    eapply is_derive_ext. { intro t. symmetry. apply Rdot_set; auto. }
    auto_derive; auto. ring.
  Qed.
  Lemma dot_sy : is_derive (fun t => Rdot x (set_coord i y t)) (nth i y 0) (nth i x 0).
  Proof.
    eapply is_derive_ext. { intro t. symmetry. apply Rdot_set_y; auto. }
    auto_derive; auto. ring.
  Qed.
  Hypothesis H1 : is_derive phi s (phi1 s).
  Hypothesis H2 : is_derive phi1 s (phi2 s).
  Lemma dot_x : is_derive (fun t => phi (Rdot (set_coord i x t) y)) (nth i x 0) (nth i y 0 * phi1 s).
  Proof.
    apply (is_derive_comp_R phi (fun t => Rdot (set_coord i x t) y)).
    - now rewrite set_same. - apply dot_sx.
  Qed.
  Lemma dot_y : is_derive (fun t => phi (Rdot x (set_coord i y t))) (nth i y 0) (nth i x 0 * phi1 s).
  Proof.
    apply (is_derive_comp_R phi (fun t => Rdot x (set_coord i y t))).
    - now rewrite set_same. - apply dot_sy.
  Qed.
  Lemma dot_m : is_derive (fun t => nth i (set_coord i x t) 0 * phi1 (Rdot (set_coord i x t) y))
    (nth i x 0) (phi1 s + nth i x 0 * nth i y 0 * phi2 s).
  Proof.
    apply is_derive_ext with (fun t => t * phi1 (Rdot (set_coord i x t) y)). { intro t. now rewrite nth_set. }
    eapply is_derive_eq.
    - apply (is_derive_mult_R (fun t => t) (fun t => phi1 (Rdot (set_coord i x t) y))).
      + apply is_derive_id.
      + apply (is_derive_comp_R phi1 (fun t => Rdot (set_coord i x t) y)); [rewrite set_same; exact H2 | apply dot_sx].
    - cbv beta. rewrite set_same. change (@one R_AbsRing) with 1. unfold s. ring.
  Qed.
End Dot.

(** ** The radial profiles *)
Definition phi (k : kern R) (s : R) : R :=
  match k with
  | KExp l c => c * exp (- (sqrt s / (2 * l ^ 2)))
  | KSE l c => c * exp (- (s / (2 * l ^ 2)))
  | KPCIMQ l c => c / sqrt (1 + s / (2 * l ^ 2))
  | KRQ l c a => c * Rpower (1 + s / (2 * a * l ^ 2)) (- a)
  | KPer l c p => c * exp (- 2 * sin (PI * sqrt s / p) ^ 2 / l ^ 2)
  | _ => 0
  end.
Definition per_g (l c p r : R) : R :=
  - (4 * (PI / p) / l ^ 2) * sin (PI * r / p) * cos (PI * r / p) * (c * exp (- 2 * sin (PI * r / p) ^ 2 / l ^ 2)).
Definition per_h (l c p r : R) : R :=
  (c * exp (- 2 * sin (PI * r / p) ^ 2 / l ^ 2)) *
  ((4 * (PI / p) / l ^ 2 * sin (PI * r / p) * cos (PI * r / p)) ^ 2
   - 4 * (PI / p) ^ 2 / l ^ 2 * (cos (PI * r / p) ^ 2 - sin (PI * r / p) ^ 2)).
Definition phi1 (k : kern R) (s : R) : R :=
  match k with
  | KExp l c => - (c / (2 * (2 * l ^ 2) * sqrt s) * exp (- (sqrt s / (2 * l ^ 2))))
  | KSE l c => - (c / (2 * l ^ 2) * exp (- (s / (2 * l ^ 2))))
  | KPCIMQ l c => - (c / (2 * (2 * l ^ 2)) / sqrt (1 + s / (2 * l ^ 2)) ^ 3)
  | KRQ l c a => - (c / (2 * l ^ 2) * Rpower (1 + s / (2 * a * l ^ 2)) (- a - 1))
  | KPer l c p => per_g l c p (sqrt s) / (2 * sqrt s)
  | _ => 0
  end.
Definition phi2 (k : kern R) (s : R) : R :=
  match k with
  | KExp l c => let F := 2 * l ^ 2 in
      c * exp (- (sqrt s / F)) * (1 / (4 * F * sqrt s ^ 3) + 1 / (4 * F ^ 2 * sqrt s ^ 2))
  | KSE l c => c / (2 * l ^ 2) ^ 2 * exp (- (s / (2 * l ^ 2)))
  | KPCIMQ l c => 3 * c / (4 * (2 * l ^ 2) ^ 2) / sqrt (1 + s / (2 * l ^ 2)) ^ 5
  | KRQ l c a => c * (a + 1) / (4 * a * l ^ 4) * Rpower (1 + s / (2 * a * l ^ 2)) (- a - 1 - 1)
  | KPer l c p => per_h l c p (sqrt s) / (4 * sqrt s ^ 2) - per_g l c p (sqrt s) / (4 * sqrt s ^ 3)
  | _ => 0
  end.
Definition radial (k : kern R) : Prop :=
  match k with KExp _ _ | KSE _ _ | KPCIMQ _ _ | KRQ _ _ _ | KPer _ _ _ => True | _ => False end.
(** where the profile is differentiable *)
Definition phi_dom (k : kern R) (s : R) : Prop :=
  match k with KExp _ _ | KPer _ _ _ => 0 < s | _ => 0 <= s end.

Lemma body_pos s S : 0 <= s -> 0 < S -> 0 < 1 + s / S.
Proof. intros. assert (0 <= s / S) by (apply Rdiv_le_0_compat; auto). lra. Qed.
Lemma sqrt_d s : 0 < s -> is_derive sqrt s (/ (2 * sqrt s)).
Proof. intro H. auto_derive; auto. field. apply Rgt_not_eq, sqrt_lt_R0; auto. Qed.
Lemma Rpower_d a u : 0 < u -> is_derive (fun v => Rpower v a) u (a * Rpower u (a - 1)).
Proof.
  intro H. apply is_derive_Reals. apply derivable_pt_lim_power; auto.
Qed.
Lemma per_g_d l c p r : 0 < l -> p <> 0 -> is_derive (per_g l c p) r (per_h l c p r).
Proof.
  intros Hl Hp. unfold per_g, per_h. auto_derive; auto.
  unfold Rdiv. cbn [pow]. set (E := exp _). field. lra.
Qed.
Lemma per_f_d l c p r : 0 < l -> p <> 0 ->
  is_derive (fun r => c * exp (- 2 * sin (PI * r / p) ^ 2 / l ^ 2)) r (per_g l c p r).
Proof.
  intros Hl Hp. unfold per_g. auto_derive; auto.
  unfold Rdiv. cbn [pow]. set (E := exp _). field. lra.
Qed.

Lemma phi_d1 k s : radial k -> closed_form k -> phi_dom k s -> is_derive (phi k) s (phi1 k s).
Proof.
  intros Rk C. destruct k; try contradiction; inversion C; subst; cbn [documented_params phi_dom phi phi1] in *; intro D.
  - assert (0 < sqrt s) by (apply sqrt_lt_R0; auto).
    apply is_derive_ext with (fun t => scale * exp (- (sqrt t / (2 * len ^ 2)))); [reflexivity|].
    auto_derive; auto. match goal with |- context[exp ?a] => replace a with (- (sqrt s / (2 * len ^ 2))) by (field; lra) end.
    field. lra.
  - apply is_derive_ext with (fun t => scale * exp (- (t / (2 * len ^ 2)))); [reflexivity|].
    auto_derive; auto. match goal with |- context[exp ?a] => replace a with (- (s / (2 * len ^ 2))) by (field; lra) end.
    field. lra.
  - assert (B := body_pos s (2 * len ^ 2) D ltac:(apply Rmult_lt_0_compat; [lra|apply pow_lt; lra])).
    assert (0 < sqrt (1 + s / (2 * len ^ 2))) by (apply sqrt_lt_R0; auto).
    apply is_derive_ext with (fun t => scale / sqrt (1 + t / (2 * len ^ 2))); [reflexivity|].
    auto_derive.
    + split; [exact B|split; [|auto]]. apply Rgt_not_eq. exact H.
    + unfold Rdiv in *. cbn [pow] in *. set (W := sqrt _) in *. field. lra.
  - assert (B := body_pos s (2 * rw * len ^ 2) D
      ltac:(repeat apply Rmult_lt_0_compat; try lra)).
    apply is_derive_ext with (fun t => scale * Rpower (1 + t / (2 * rw * len ^ 2)) (- rw)); [reflexivity|].
    eapply is_derive_eq.
    + apply is_derive_scal_R. apply (is_derive_comp_R (fun v => Rpower v (- rw)) (fun t => 1 + t / (2 * rw * len ^ 2))).
      * apply Rpower_d; auto.
      * instantiate (1 := / (2 * rw * len ^ 2)). auto_derive; auto. field. lra.
    + cbv beta. field. lra.
  - assert (0 < sqrt s) by (apply sqrt_lt_R0; auto).
    apply is_derive_ext with (fun t => (fun r => scale * exp (- 2 * sin (PI * r / period) ^ 2 / len ^ 2)) (sqrt t)); [reflexivity|].
    eapply is_derive_eq.
    + apply (is_derive_comp_R (fun r => scale * exp (- 2 * sin (PI * r / period) ^ 2 / len ^ 2)) sqrt).
      * apply per_f_d; lra.
      * apply sqrt_d; auto.
    + cbv beta. field. lra.
Qed.
Lemma phi_d2 k s : radial k -> closed_form k -> phi_dom k s -> is_derive (phi1 k) s (phi2 k s).
Proof.
  intros Rk C. destruct k; try contradiction; inversion C; subst; cbn [documented_params phi_dom phi phi1 phi2] in *; intro D.
  - assert (0 < sqrt s) by (apply sqrt_lt_R0; auto).
    apply is_derive_ext with (fun t => - (scale / (2 * (2 * len ^ 2) * sqrt t) * exp (- (sqrt t / (2 * len ^ 2))))); [reflexivity|].
    auto_derive.
    + split; [auto|]. split; [|auto]. apply Rgt_not_eq. repeat apply Rmult_lt_0_compat; lra.
    + match goal with |- context[exp ?a] => replace a with (- (sqrt s / (2 * len ^ 2))) by (field; lra) end.
      field. lra.
  - apply is_derive_ext with (fun t => - (scale / (2 * len ^ 2) * exp (- (t / (2 * len ^ 2))))); [reflexivity|].
    auto_derive; auto. match goal with |- context[exp ?a] => replace a with (- (s / (2 * len ^ 2))) by (field; lra) end.
    field. lra.
  - assert (B := body_pos s (2 * len ^ 2) D ltac:(apply Rmult_lt_0_compat; [lra|apply pow_lt; lra])).
    assert (0 < sqrt (1 + s / (2 * len ^ 2))) by (apply sqrt_lt_R0; auto).
    apply is_derive_ext with (fun t => - (scale / (2 * (2 * len ^ 2)) / sqrt (1 + t / (2 * len ^ 2)) ^ 3)); [reflexivity|].
    auto_derive.
    + split; [exact B|split; [|auto]]. apply Rgt_not_eq. repeat apply Rmult_lt_0_compat; try exact H; lra.
    + unfold Rdiv in *. cbn [pow] in *. set (W := sqrt _) in *. field. lra.
  - assert (B := body_pos s (2 * rw * len ^ 2) D
      ltac:(repeat apply Rmult_lt_0_compat; try lra)).
    apply is_derive_ext with (fun t => (- (scale / (2 * len ^ 2))) * Rpower (1 + t / (2 * rw * len ^ 2)) (- rw - 1)).
    { intro t. cbn [phi1]. change (@eq R_NormedModule) with (@eq R). ring. }
    eapply is_derive_eq.
    + apply is_derive_scal_R. apply (is_derive_comp_R (fun v => Rpower v (- rw - 1)) (fun t => 1 + t / (2 * rw * len ^ 2))).
      * apply Rpower_d; auto.
      * instantiate (1 := / (2 * rw * len ^ 2)). auto_derive; auto. field. lra.
    + cbv beta. field. lra.
  - assert (0 < sqrt s) by (apply sqrt_lt_R0; auto).
    apply is_derive_ext with (fun t => (fun r => per_g len scale period r / (2 * r)) (sqrt t)); [reflexivity|].
    eapply is_derive_eq.
    + apply (is_derive_comp_R (fun r => per_g len scale period r / (2 * r)) sqrt).
      * apply (is_derive_div (per_g len scale period) (fun r => 2 * r)).
        -- apply per_g_d; lra.
        -- instantiate (1 := 2). auto_derive; auto. ring.
        -- cbv beta. lra.
      * apply sqrt_d; auto.
    + unfold minus, plus, opp, scal, mult; cbn. unfold mult; cbn. field. lra.
Qed.
Lemma kfun_phi k x y : radial k -> kfun k x y = phi k (sqdist x y).
Proof. destruct k; cbn; try contradiction; reflexivity. Qed.
