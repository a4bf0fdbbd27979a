(** * Properties C62, C63, C64: sliced score matching *)
From Coq Require Import List ZArith Reals Lra Lia Bool.
From Verif Require Import Num Jax JaxFacts RSum GreedyProofs SSMModel SSMSpec SSMProofs SSMProofs2.
From Coquelicot Require Import Coquelicot.
Import ListNotations.
Open Scope R_scope.

(** ** C62: the expected training loss is the score matching objective *)

(** Every ScoreNetwork, whatever its layers and parameters, computes the real network
    on real inputs, has as many outputs as its last layer, and is differentiable. *)
Theorem C62_network_differentiable :
  forall (softplus' : ER -> ER) (hidden : list (list (list R) * list R)) (output : list (list R) * list R) (x : list R) (d : nat),
    (forall r, softplus' (Fin r) = Fin (ln (1 + exp r))) -> length x = d -> length (snd output) = d ->
    score_network EROps softplus' (map fin_layer hidden, fin_layer output) (map Fin x) = map Fin (networkR hidden output x)
    /\ length (networkR hidden output x) = d
    /\ differentiable d (networkR hidden output) x.
Proof.
  intros softplus' hidden output x d Hs Hx Ho. split; [now apply network_fin|]. split; [now rewrite network_length|].
  now apply network_differentiable.
Qed.
Print Assumptions C62_network_differentiable.

(** The training loss without noise conditioning is the mean over all points and all
    their random vectors of equation 7, or 8 if analytic, of Song et al. *)
Theorem C62_training_loss :
  forall (jvp : (list ER -> list ER) -> list ER -> list ER -> list ER * list ER) (softplus' : ER -> ER)
         (hidden : list (list (list R) * list R)) (output : list (list R) * list R)
         (s : ssm) (n m d : nat) (x : list (list R)) (noise : list (list ER)) (vs : list (list (list R))),
    jvp_spec jvp -> (forall r, softplus' (Fin r) = Fin (ln (1 + exp r))) -> length (snd output) = d ->
    (1 <= n)%nat -> (1 <= m)%nat -> shaped n d x -> length vs = n -> (forall l, In l vs -> shaped m d l) ->
    m_noise_conditioning s = false ->
    train_loss EROps jvp s noise (score_network EROps softplus' (map fin_layer hidden, fin_layer output)) (map (map Fin) x) (fin3 vs)
    = Fin (Rsum (map (fun i => Rsum (map (fun j => sliced_term d (networkR hidden output) (m_use_analytic s) (nth i x []) (nth j (nth i vs []) []))
                                         (seq 0 m))) (seq 0 n)) / INR (n * m)).
Proof.
  intros jvp softplus' hidden output s n m d x noise vs Hj Hs Ho Hn Hm [Lx Rx] Lv Rv Hc.
  set (f := score_network EROps softplus' (map fin_layer hidden, fin_layer output)). set (F := networkR hidden output).
  assert (Hf : forall y, length y = d -> f (map Fin y) = map Fin (F y) /\ length (F y) = d).
  { intros y Hy. split; [now apply network_fin|]. unfold F. now rewrite network_length. }
  assert (Hd : forall y, length y = d -> differentiable d F y) by (intros y Hy; now apply network_differentiable).
  unfold train_loss. rewrite Hc.
  assert (Hl : forall w : unit, length ((fun _ : unit => vs) w) = n /\ forall l, In l ((fun _ : unit => vs) w) -> length l = m /\ forall v, In v l -> length v = d).
  { intros []. split; [exact Lv|]. intros l Hl. split; apply Rv, Hl. }
  pose proof (standard_loss_fin jvp Hj d f F Hf Hd n m (fun _ : unit => vs) Hn Hm Hl s x tt Lx Rx) as E. cbv beta in E. rewrite E. f_equal.
  exact (lossR_sum d F n m (fun _ : unit => vs) Hn Hm Hl (m_use_analytic s) x tt Lx).
Qed.
Print Assumptions C62_training_loss.

Lemma batch_shape {W : Type} (E : (W -> R) -> R) n m d vs : batch_vectors E n m d vs ->
  forall w, length (vs w) = n /\ forall l, In l (vs w) -> length l = m /\ forall v, In v l -> length v = d.
Proof.
  intros [A B] w. destruct (A w) as [L R]. split; [exact L|]. intros l Hl. split; [now apply R|]. intros v Hv.
  destruct (In_nth _ _ [] Hl) as (i & Hi & <-). destruct (In_nth _ _ [] Hv) as (j & Hj & <-).
  refine (proj1 (B i j ltac:(lia) _) w). now rewrite <- (R _ Hl).
Qed.

(** Without noise conditioning: for both objectives, any network, any batch and any
    isotropic random vectors (normal, sign, spherical of radius sqrt d, ...), the
    expected training loss is the mean over the batch of  div s + |s|^2 / 2. *)
Theorem C62_expected_objective :
  forall (jvp : (list ER -> list ER) -> list ER -> list ER -> list ER * list ER) (softplus' : ER -> ER)
         (hidden : list (list (list R) * list R)) (output : list (list R) * list R)
         (s : ssm) (W : Type) (E : (W -> R) -> R) (n m d : nat) (x : list (list R)) (noise : list (list ER)) (vs : W -> list (list (list R))),
    jvp_spec jvp -> (forall r, softplus' (Fin r) = Fin (ln (1 + exp r))) -> length (snd output) = d ->
    expectation E -> batch_vectors E n m d vs -> (1 <= n)%nat -> (1 <= m)%nat -> shaped n d x ->
    m_noise_conditioning s = false ->
    exists L : W -> R,
      (forall w, train_loss EROps jvp s noise (score_network EROps softplus' (map fin_layer hidden, fin_layer output)) (map (map Fin) x) (fin3 (vs w))
                 = Fin (L w)) /\
      E L = mean_of (hyvarinen d (networkR hidden output)) x.
Proof.
  intros jvp softplus' hidden output s W E n m d x noise vs Hj Hs Ho HE Hv Hn Hm [Lx Rx] Hc.
  set (f := score_network EROps softplus' (map fin_layer hidden, fin_layer output)). set (F := networkR hidden output).
  assert (Hf : forall y, length y = d -> f (map Fin y) = map Fin (F y) /\ length (F y) = d).
  { intros y Hy. split; [now apply network_fin|]. unfold F. now rewrite network_length. }
  assert (Hd : forall y, length y = d -> differentiable d F y) by (intros y Hy; now apply network_differentiable).
  exists (lossR d F n m vs (m_use_analytic s) x). split.
  - intro w. unfold train_loss. rewrite Hc. apply (standard_loss_fin jvp Hj d f F Hf Hd); auto. now apply (batch_shape E).
  - apply (expected_loss d f F Hf Hd); auto; [now apply (batch_shape E)|apply Hv].
Qed.
Print Assumptions C62_expected_objective.

(** With noise conditioning: the sum over the noise models of sigma_i^2 times that
    mean at the points moved by sigma_i times the noise, sigma_i = sigma gamma^i. *)
Theorem C62_expected_noise_conditioned_objective :
  forall (jvp : (list ER -> list ER) -> list ER -> list ER -> list ER * list ER) (softplus' : ER -> ER)
         (hidden : list (list (list R) * list R)) (output : list (list R) * list R)
         (s : ssm) (W : Type) (E : (W -> R) -> R) (n m d : nat) (x noise : list (list R)) (vs : W -> list (list (list R))) (sigma gamma : R),
    jvp_spec jvp -> (forall r, softplus' (Fin r) = Fin (ln (1 + exp r))) -> length (snd output) = d ->
    expectation E -> batch_vectors E n m d vs -> (1 <= n)%nat -> (1 <= m)%nat -> shaped n d x -> shaped n d noise ->
    m_noise_conditioning s = true -> m_sigma s = Fin sigma -> m_gamma s = Fin gamma ->
    exists L : W -> R,
      (forall w, train_loss EROps jvp s (map (map Fin) noise) (score_network EROps softplus' (map fin_layer hidden, fin_layer output))
                   (map (map Fin) x) (fin3 (vs w)) = Fin (L w)) /\
      E L = Rsum (map (fun i => (sigma * gamma ^ i)^2 * mean_of (hyvarinen d (networkR hidden output)) (perturb (sigma * gamma ^ i) x noise))
                      (seq 0 (Z.to_nat (m_num_noise_models s)))).
Proof.
  intros jvp softplus' hidden output s W E n m d x noise vs sigma gamma Hj Hs Ho HE Hv Hn Hm [Lx Rx] [Ln Rn] Hc Es Eg.
  set (f := score_network EROps softplus' (map fin_layer hidden, fin_layer output)). set (F := networkR hidden output).
  assert (Hf : forall y, length y = d -> f (map Fin y) = map Fin (F y) /\ length (F y) = d).
  { intros y Hy. split; [now apply network_fin|]. unfold F. now rewrite network_length. }
  assert (Hd : forall y, length y = d -> differentiable d F y) by (intros y Hy; now apply network_differentiable).
  exists (noisyR d F n m vs (m_use_analytic s) sigma gamma (Z.to_nat (m_num_noise_models s)) x noise). split.
  - intro w. unfold train_loss. rewrite Hc. apply (noisy_fin jvp Hj d f F Hf Hd); auto. now apply (batch_shape E).
  - apply (expected_noisy d f F Hf Hd); auto; [now apply (batch_shape E)|apply Hv].
Qed.
Print Assumptions C62_expected_noise_conditioned_objective.

(** sign vectors (jax.random.rademacher) are isotropic, in every dimension; sharing
    them between the points of a batch meets the hypotheses *)
Example C62_rademacher : forall n m d : nat,
  expectation (rademacher d) /\ batch_vectors (rademacher d) n m d (fun v => repeat (repeat (pad d v) m) n).
Proof.
  intros n m d. split; [apply rademacher_expectation|]. split.
  - intro w. split; [apply repeat_length|]. intros l Hl. apply repeat_spec in Hl. subst l. apply repeat_length.
  - intros i j Hi Hj. pose proof (rademacher_isotropic d) as [L I].
    assert (N : forall w, nth j (nth i (repeat (repeat (pad d w) m) n) []) [] = pad d w).
    { intro w. rewrite (nth_indep _ [] (repeat (pad d w) m)) by now rewrite repeat_length. rewrite nth_repeat.
      rewrite (nth_indep _ [] (pad d w)) by now rewrite repeat_length. apply nth_repeat. }
    split; [intro w; rewrite N; apply L|]. intros a b Ha Hb. rewrite <- (I a b Ha Hb).
    apply (ex_ext _ (rademacher_expectation d)). intro w. now rewrite N.
Qed.
Example C62_applies :
  jvp_spec ex_jvp /\ (forall r, softplusE (Fin r) = Fin (ln (1 + exp r))) /\
  (forall r, hyvarinen 1 (networkR [] ([[-1]], [0])) [r] = -1 + r * r / 2).
Proof.
  split; [apply ex_jvp_ok|]. split; [reflexivity|]. intro r.
  unfold hyvarinen, divergence. cbn [seq map Rsum].
  rewrite (is_derive_unique _ 0 (-1)).
  - unfold networkR, layerR, Rdot. cbn. field.
  - apply (is_derive_ext (fun t => - (r + t))); [intro t; unfold networkR, layerR, along, unit_vector, Rdot; cbn; ring|]. auto_derive; [trivial|ring].
Qed.

(** ** C64: the analytic objective and its variance *)

(** value of one term of the loss for one point and one random vector, as a real *)
Definition term_value (jvp : (list ER -> list ER) -> list ER -> list ER -> list ER * list ER) (s : ssm) (f : list ER -> list ER) (x v : list R) : R :=
  match loss_element EROps jvp s f (map Fin x) (map Fin v) with Fin r => r | _ => 0 end.

(** If  v . J v  and  (v . s)^2  are not negatively correlated, the analytic objective
    has no larger variance. *)
Theorem C64_analytic_variance_partial :
  forall (jvp : (list ER -> list ER) -> list ER -> list ER -> list ER * list ER) (softplus' : ER -> ER)
         (hidden : list (list (list R) * list R)) (output : list (list R) * list R) (s s' : ssm)
         (W : Type) (E : (W -> R) -> R) (d : nat) (x : list R) (v : W -> list R),
    jvp_spec jvp -> (forall r, softplus' (Fin r) = Fin (ln (1 + exp r))) -> length (snd output) = d -> length x = d ->
    expectation E -> (forall f, (forall w, 0 <= f w) -> 0 <= E f) -> (forall w, length (v w) = d) ->
    m_use_analytic s = true -> m_use_analytic s' = false ->
    let F := networkR hidden output in
    let f := score_network EROps softplus' (map fin_layer hidden, fin_layer output) in
    0 <= covariance E (fun w => Rdot (v w) (map (fun a => Derive (fun t => nth a (F (along x (v w) t)) 0) 0) (seq 0 d)))
                      (fun w => (Rdot (v w) (F x))^2) ->
    variance E (fun w => term_value jvp s f x (v w)) <= variance E (fun w => term_value jvp s' f x (v w)).
Proof.
  intros jvp softplus' hidden output s s' W E d x v Hj Hs Ho Hx HE Hpos Lv Ha Ha' F f Hcov.
  assert (Hf : forall y, length y = d -> f (map Fin y) = map Fin (F y) /\ length (F y) = d).
  { intros y Hy. split; [now apply network_fin|]. unfold F. now rewrite network_length. }
  assert (Hd : differentiable d F x) by now apply network_differentiable.
  set (A := fun w => Rdot (v w) (map (fun a => Derive (fun t => nth a (F (along x (v w) t)) 0) 0) (seq 0 d))) in *.
  set (B := fun w => (Rdot (v w) (F x))^2) in *. set (c := Rdot (F x) (F x) / 2).
  assert (V1 : forall w, term_value jvp s f x (v w) = A w + c).
  { intro w. unfold term_value. rewrite (loss_element_fin jvp Hj d f F Hf) by auto. unfold sliced_term. now rewrite Ha. }
  assert (V2 : forall w, term_value jvp s' f x (v w) = A w + / 2 * B w).
  { intro w. unfold term_value. rewrite (loss_element_fin jvp Hj d f F Hf) by auto. unfold sliced_term. rewrite Ha'. unfold A, B. field. }
  assert (M1 : E (fun w => term_value jvp s f x (v w)) = E A + c).
  { rewrite (ex_ext E HE _ _ V1), (ex_plus E HE A). now rewrite (E_const E HE). }
  assert (M2 : E (fun w => term_value jvp s' f x (v w)) = E A + / 2 * E B).
  { rewrite (ex_ext E HE _ _ V2), (ex_plus E HE A). now rewrite (ex_scal E HE). }
  unfold variance. rewrite M1, M2.
  rewrite (ex_ext E HE _ (fun w => (A w - E A) * (A w - E A))) by (intro w; rewrite V1; ring).
  rewrite (ex_ext E HE (fun w => (term_value jvp s' f x (v w) - _) * _)
    (fun w => ((A w - E A) * (A w - E A) + (A w - E A) * (B w - E B)) + / 4 * ((B w - E B) * (B w - E B)))) by (intro w; rewrite V2; field).
  rewrite (ex_plus E HE (fun w => (A w - E A) * (A w - E A) + (A w - E A) * (B w - E B))), (ex_plus E HE (fun w => (A w - E A) * (A w - E A))), (ex_scal E HE).
  change (E (fun w => (A w - E A) * (B w - E B))) with (covariance E A B).
  assert (0 <= E (fun w => (B w - E B) * (B w - E B))) by (apply Hpos; intro; apply Rle_0_sqr). lra.
Qed.
Print Assumptions C64_analytic_variance_partial.

(** Finding: in general it does not reduce the variance.  With sign vectors there is a
    score network and a point where the plain objective has variance 0 and the
    "reduced variance" one has variance 1. *)
Theorem C64_analytic_variance_refuted :
  forall (jvp : (list ER -> list ER) -> list ER -> list ER -> list ER * list ER) (softplus' : ER -> ER),
    jvp_spec jvp -> (forall r, softplus' (Fin r) = Fin (ln (1 + exp r))) ->
    exists (hidden : list (list (list R) * list R)) (output : list (list R) * list R) (x : list R),
      let f := score_network EROps softplus' (map fin_layer hidden, fin_layer output) in
      forall s s', m_use_analytic s = true -> m_use_analytic s' = false ->
        variance (rademacher 2) (fun v => term_value jvp s f x (pad 2 v)) = 1 /\
        variance (rademacher 2) (fun v => term_value jvp s' f x (pad 2 v)) = 0.
Proof.
  intros jvp softplus' Hj Hs. exists [], ([[0; -1]; [0; 0]], [1; 1]), [0; 0]. intros f s s' Ha Ha'.
  set (F := networkR [] ([[0; -1]; [0; 0]], [1; 1])).
  assert (Hf : forall y, length y = 2%nat -> f (map Fin y) = map Fin (F y) /\ length (F y) = 2%nat).
  { intros y Hy. split; [apply (network_fin softplus' []); exact Hs|reflexivity]. }
  assert (Hd : differentiable 2 F [0; 0]) by now apply network_differentiable.
  assert (T : forall b v0 v1, sliced_term 2 F b [0; 0] [v0; v1] = - v0 * v1 + (if b then 1 else (v0 + v1) * (v0 + v1) / 2)).
  { intros b v0 v1. unfold sliced_term. f_equal.
    - cbn [seq map]. 
      assert (D0 : Derive (fun t : R => nth 0 (F (along [0; 0] [v0; v1] t)) 0) 0 = 0).
      { apply is_derive_unique. apply (is_derive_ext (fun _ => 1)); [intro t; unfold F, networkR, layerR, along, Rdot; cbn; ring|apply @is_derive_const]. }
      assert (D1 : Derive (fun t : R => nth 1 (F (along [0; 0] [v0; v1] t)) 0) 0 = - v0).
      { apply is_derive_unique. apply (is_derive_ext (fun t => 1 - t * v0)); [intro t; unfold F, networkR, layerR, along, Rdot; cbn; ring|]. auto_derive; [trivial|ring]. }
      rewrite D0, D1.
      unfold Rdot. cbn. ring.
    - unfold F, networkR, layerR, Rdot. cbn. destruct b; field. }
  assert (V : forall s v, length v = 2%nat -> term_value jvp s f [0; 0] v = sliced_term 2 F (m_use_analytic s) [0; 0] v).
  { intros s0 v Hv. unfold term_value. rewrite (loss_element_fin jvp Hj 2 f F Hf) by auto. reflexivity. }
  unfold variance, rademacher. rewrite !(Rsum_map_ext (fun v => term_value jvp s f [0; 0] (pad 2 v)) (fun v => sliced_term 2 F true [0; 0] (pad 2 v))) by (intros; rewrite V, Ha by apply pad_length; reflexivity).
  rewrite !(Rsum_map_ext (fun v => term_value jvp s' f [0; 0] (pad 2 v)) (fun v => sliced_term 2 F false [0; 0] (pad 2 v))) by (intros; rewrite V, Ha' by apply pad_length; reflexivity).
  split.
  - rewrite (Rsum_map_ext _ (fun v => (sliced_term 2 F true [0; 0] (pad 2 v) - Rsum (map (fun v => sliced_term 2 F true [0; 0] (pad 2 v)) (signs 2)) / INR (length (signs 2)))
      * (sliced_term 2 F true [0; 0] (pad 2 v) - Rsum (map (fun v => sliced_term 2 F true [0; 0] (pad 2 v)) (signs 2)) / INR (length (signs 2)))))
      by (intros; rewrite V, Ha by apply pad_length; reflexivity).
    cbn [signs map app Rsum length pad seq nth]. rewrite !T. cbn [INR]. field.
  - rewrite (Rsum_map_ext _ (fun v => (sliced_term 2 F false [0; 0] (pad 2 v) - Rsum (map (fun v => sliced_term 2 F false [0; 0] (pad 2 v)) (signs 2)) / INR (length (signs 2)))
      * (sliced_term 2 F false [0; 0] (pad 2 v) - Rsum (map (fun v => sliced_term 2 F false [0; 0] (pad 2 v)) (signs 2)) / INR (length (signs 2)))))
      by (intros; rewrite V, Ha' by apply pad_length; reflexivity).
    cbn [signs map app Rsum length pad seq nth]. rewrite !T. cbn [INR]. field.
Qed.
Print Assumptions C64_analytic_variance_refuted.
Example C64_applies :
  (forall f, (forall w, 0 <= f w) -> 0 <= rademacher 2 f) /\
  let F := networkR [] ([[0; 1]; [0; 0]], [1; 1]) in
  covariance (rademacher 2) (fun w => Rdot (pad 2 w) (map (fun a => Derive (fun t => nth a (F (along [0; 0] (pad 2 w) t)) 0) 0) (seq 0 2)))
             (fun w => (Rdot (pad 2 w) (F [0; 0]))^2) = 2.
Proof.
  split.
  - intros f Hf. unfold rademacher. pose proof (signs_pos 2). apply Rmult_le_pos; [|apply Rlt_le, Rinv_0_lt_compat; assumption].
    generalize (signs 2). intro l. induction l as [|a l IH]; cbn; [lra|]. specialize (Hf a). lra.
  - intro F.
    assert (D0 : forall v0 v1, Derive (fun t : R => nth 0 (F (along [0; 0] [v0; v1] t)) 0) 0 = 0).
    { intros. apply is_derive_unique. apply (is_derive_ext (fun _ => 1)); [intro t; unfold F, networkR, layerR, along, Rdot; cbn; ring|apply @is_derive_const]. }
    assert (D1 : forall v0 v1, Derive (fun t : R => nth 1 (F (along [0; 0] [v0; v1] t)) 0) 0 = v0).
    { intros. apply is_derive_unique. apply (is_derive_ext (fun t => 1 + t * v0)); [intro t; unfold F, networkR, layerR, along, Rdot; cbn; ring|]. auto_derive; [trivial|ring]. }
    assert (F0 : F [0; 0] = [1; 1]) by (unfold F, networkR, layerR, Rdot; cbn; repeat f_equal; ring).
    unfold covariance, rademacher. rewrite F0. cbn [signs map app Rsum length pad seq nth]. rewrite !D0, !D1. unfold Rdot. cbn. field.
Qed.

(** ** C63: construction and training *)

(** The constructor succeeds exactly when no learning rate is given, the optimiser is a
    GradientTransformation, and the four counts are ints in range; it keeps them. *)
Theorem C63_construction :
  forall V (learning_rate_given optimiser_ok nc ua : bool) (vectors epochs batch models : option Z) (sigma gamma : V) (s : ssm),
    ssm_init learning_rate_given optimiser_ok nc ua vectors epochs batch models sigma gamma = Constructed s <->
    learning_rate_given = false /\ optimiser_ok = true /\
    exists v e b m, vectors = Some v /\ epochs = Some e /\ batch = Some b /\ models = Some m /\
      (1 <= v)%Z /\ (0 <= e)%Z /\ (0 <= b)%Z /\ (1 <= m)%Z /\ s = mkSSM nc ua v e b m sigma gamma.
Proof.
  intros V lr ok nc ua vectors epochs batch models sigma gamma s. unfold ssm_init.
  destruct lr, ok; cbn [negb]; try (split; [discriminate|intros (A & B & _); discriminate]).
  cbn [existsb below]. destruct epochs as [e|], batch as [b|], vectors as [v|], models as [m|]; cbn [existsb below orb];
    rewrite ?orb_true_r; cbn [orb];
    try (split; [repeat match goal with |- context [if ?c then _ else _] => destruct c end; discriminate
                |intros (_ & _ & v' & e' & b' & m' & H1 & H2 & H3 & H4 & _); discriminate]).
  rewrite !orb_false_r. destruct (Z.ltb_spec e 0), (Z.ltb_spec b 0); cbn [orb];
    try (split; [discriminate|intros (_ & _ & v' & e' & b' & m' & H1 & H2 & H3 & H4 & ? & ? & ? & ? & _); injection H1 as <-; injection H2 as <-; injection H3 as <-; injection H4 as <-; lia]).
  destruct (Z.ltb_spec v 1), (Z.ltb_spec m 1); cbn [orb];
    try (split; [discriminate|intros (_ & _ & v' & e' & b' & m' & H1' & H2' & H3' & H4' & ? & ? & ? & ? & _); injection H1' as <-; injection H2' as <-; injection H3' as <-; injection H4' as <-; lia]).
  split.
  - intro E. injection E as <-. split; [reflexivity|]. split; [reflexivity|]. exists v, e, b, m. repeat split; auto.
  - intros (_ & _ & v' & e' & b' & m' & H1' & H2' & H3' & H4' & _ & _ & _ & _ & ->). now injection H1' as <-; injection H2' as <-; injection H3' as <-; injection H4' as <-.
Qed.
Print Assumptions C63_construction.

(** Training starts from the initial network and makes [num_epochs] optimiser steps;
    step k minimises the loss on [batch_size] rows of the data, drawn with the k-th key,
    each with its own random vectors; the result is applied row by row. *)
Theorem C63_training :
  forall V (O : FOps V) Key State (split3 : Key -> Key * Key * Key) (split : Key -> nat -> nat -> Key)
         (generate : Key -> nat -> nat -> nat -> list (list (list V))) (randint : Key -> nat -> Z -> Z -> list Z)
         (init : Key -> nat -> State) (apply : State -> list V -> list V) (noise : nat -> nat -> list (list V)) jvp
         (optimise : (State -> V) -> State -> State) (s : ssm) (key generator_key state_key batch_key : Key) (x : list (list V)) (d : nat),
    (forall k n m e, length (generate k n m e) = n) ->
    (forall k size lo hi, (lo < hi)%Z -> length (randint k size lo hi) = size /\ forall i, In i (randint k size lo hi) -> (lo <= i < hi)%Z) ->
    split3 key = (generator_key, state_key, batch_key) -> x <> [] -> (forall p, In p x -> length p = d) -> (1 <= m_batch_size s)%Z ->
    let epochs := Z.to_nat (m_num_epochs s) in
    let size := Z.to_nat (m_batch_size s) in
    let vectors := generate generator_key (length x) (Z.to_nat (m_num_random_vectors s)) d in
    exists (batch : nat -> list nat) (state : nat -> State),
      (forall k, (k < epochs)%nat -> length (batch k) = size /\ (forall i, In i (batch k) -> (i < length x)%nat) /\
         map Z.of_nat (batch k) = randint (split batch_key epochs k) size 0%Z (Z.of_nat (length x))) /\
      state 0%nat = init state_key d /\
      (forall k, (k < epochs)%nat -> exists objective, state (S k) = optimise objective (state k) /\
         forall st, objective st = train_loss O jvp s (noise size d) (apply st) (map (fun i => nth i x []) (batch k)) (map (fun i => nth i vectors []) (batch k))) /\
      forall y, match_ O split3 split generate randint init apply noise jvp optimise s key x y = map (apply (state epochs)) y.
Proof.
  intros V O Key State split3 split generate randint init apply noise jvp optimise s key gk sk bk x d Hg Hr Hs Hx Hd Hb epochs size vectors.
  assert (Ed : length (hd [] x) = d) by (destruct x; [now elim Hx|apply Hd; now left]).
  set (B := fun k => map Z.to_nat (randint (split bk epochs k) size 0%Z (Z.of_nat (length x)))).
  set (step := fun (i : nat) (st : State) =>
      let idx := randint (split bk epochs i) size 0%Z (Z.of_nat (length x)) in
      train_step O apply noise jvp optimise s st (gather [] x idx) (gather [] vectors idx)).
  assert (Hn : (0 < Z.of_nat (length x))%Z) by (destruct x; [now elim Hx|cbn; lia]).
  assert (HB : forall k, length (B k) = size /\ (forall i, In i (B k) -> (i < length x)%nat) /\ map Z.of_nat (B k) = randint (split bk epochs k) size 0%Z (Z.of_nat (length x))).
  { intro k. destruct (Hr (split bk epochs k) size 0%Z (Z.of_nat (length x)) Hn) as [L I]. unfold B. split; [now rewrite map_length|]. split.
    - intros i Hi. apply in_map_iff in Hi. destruct Hi as (z & <- & Hz). specialize (I z Hz). lia.
    - rewrite map_map. rewrite <- (map_id (randint _ _ _ _)) at 2. apply map_ext_in. intros z Hz. specialize (I z Hz). lia. }
  exists B, (fun k => fori k step (init sk d)). split; [intros k _; apply HB|]. split; [reflexivity|]. split.
  - intros k Hk. destruct (HB k) as (L & I & M). rewrite fori_S. set (st := fori k step (init sk d)). unfold step. cbv zeta. unfold train_step.
    eexists. split; [reflexivity|]. intro st'. cbv beta.
    assert (G : forall A (a : A) l, length l = length x -> gather a l (randint (split bk epochs k) size 0%Z (Z.of_nat (length x))) = map (fun i => nth i l a) (B k)).
    { intros A a l Hl. rewrite <- M. unfold gather. rewrite map_map. apply map_ext_in. intros i Hi. apply jget_nat. rewrite Hl. now apply I. }
    rewrite !G by (try reflexivity; apply Hg).
    assert (E1 : length (map (fun i => nth i x []) (B k)) = size) by now rewrite map_length.
    assert (E2 : length (hd [] (map (fun i => nth i x []) (B k))) = d).
    { destruct (B k) as [|i b] eqn:Eb; [cbn in L; lia|]. cbn [map hd]. apply Hd. apply nth_In. apply I. now left. }
    now rewrite E1, E2.
  - intro y. unfold match_, train. rewrite Hs, Ed. reflexivity.
Qed.
Print Assumptions C63_training.

(** With [num_epochs = 0] the result is the initial network: it depends on the key and
    the number of columns only. *)
Theorem C63_no_epochs :
  forall V (O : FOps V) Key State (split3 : Key -> Key * Key * Key) (split : Key -> nat -> nat -> Key)
         (generate : Key -> nat -> nat -> nat -> list (list (list V))) (randint : Key -> nat -> Z -> Z -> list Z)
         (init : Key -> nat -> State) (apply : State -> list V -> list V) (noise : nat -> nat -> list (list V)) jvp
         (optimise : (State -> V) -> State -> State) (s : ssm) (key generator_key state_key batch_key : Key) (x : list (list V)) (y : list (list V)),
    split3 key = (generator_key, state_key, batch_key) -> m_num_epochs s = 0%Z ->
    match_ O split3 split generate randint init apply noise jvp optimise s key x y = map (apply (init state_key (length (hd [] x)))) y.
Proof. intros. unfold match_, train. rewrite H, H0. reflexivity. Qed.
Print Assumptions C63_no_epochs.

(** Finding: [batch_size = 0] passes validation, but then every loss handed to the
    optimiser is NaN, whatever the data and the parameters, with and without noise
    conditioning. *)
Theorem C63_empty_batch_refuted :
  forall (nc ua : bool) (vectors models : Z) (sigma gamma : ER), (1 <= vectors)%Z -> (1 <= models)%Z ->
  exists s, ssm_init false true nc ua (Some vectors) (Some 1%Z) (Some 0%Z) (Some models) sigma gamma = Constructed s /\
  forall Key State (split3 : Key -> Key * Key * Key) (split : Key -> nat -> nat -> Key)
         (generate : Key -> nat -> nat -> nat -> list (list (list ER))) (randint : Key -> nat -> Z -> Z -> list Z)
         (init : Key -> nat -> State) (apply : State -> list ER -> list ER) (noise : nat -> nat -> list (list ER)) jvp
         (optimise : (State -> ER) -> State -> State) (key : Key) (x : list (list ER)),
    (forall k size lo hi, length (randint k size lo hi) = size) ->
    exists objective st,
      train EROps split3 split generate randint init apply noise jvp optimise s key x = optimise objective st /\
      forall params, objective params = NaN.
Proof.
  intros nc ua vectors models sigma gamma Hv Hm. exists (mkSSM nc ua vectors 1 0 models sigma gamma). split.
  { apply C63_construction. repeat split. exists vectors, 1%Z, 0%Z, models. repeat split; lia. }
  intros Key State split3 split generate randint init apply noise jvp optimise key x Hr. unfold train.
  destruct (split3 key) as [[gk sk] bk]. cbn [m_num_epochs m_batch_size m_num_random_vectors]. change (Z.to_nat 1) with 1%nat. change (Z.to_nat 0) with 0%nat.
  rewrite fori_S. unfold train_step. eexists _, _. split; [reflexivity|]. intro params. cbv beta.
  match goal with |- context [randint ?a ?b ?c ?e] => pose proof (Hr a b c e) as L; destruct (randint a b c e); [|discriminate] end.
  cbn [gather map]. 
  assert (S0 : forall s' sc y, standard_loss EROps jvp s' sc y [] = NaN).
  { intros s' sc y. unfold standard_loss, loss, mean_all. replace (map2 _ y []) with (@nil (list ER)) by (destruct y; reflexivity).
    cbn [concat length]. change (fsum EROps []) with (Fin 0 : ER). change (fofZ EROps (Z.of_nat 0)) with (Fin 0 : ER). apply fdiv_zero_zero. }
  unfold train_loss. cbn [m_noise_conditioning m_num_noise_models]. destruct nc; [|apply S0].
  destruct (Z.to_nat models) as [|k] eqn:Ek; [lia|]. rewrite fori_S. cbv zeta. rewrite S0.
  match goal with |- fadd _ ?a (fmul _ ?b NaN) = NaN => destruct a, b; reflexivity end.
Qed.
Print Assumptions C63_empty_batch_refuted.
Example C63_applies :
  (exists s, ssm_init false true true false (Some 1%Z) (Some 10%Z) (Some 64%Z) (Some 100%Z) (Fin 1 : ER) (Fin (19 / 20)) = Constructed s) /\
  (let randint (k : unit) (size : nat) (lo hi : Z) := repeat (hi - 1)%Z size in
   forall k size lo hi, (lo < hi)%Z -> length (randint k size lo hi) = size /\ forall i, In i (randint k size lo hi) -> (lo <= i < hi)%Z) /\
  (let generate (k : unit) (n m d : nat) := repeat (repeat (repeat (Fin 1 : ER) d) m) n in forall k n m d, length (generate k n m d) = n).
Proof.
  split; [eexists; reflexivity|]. split; intros; [|apply repeat_length].
  split; [apply repeat_length|]. intros i Hi. apply repeat_spec in Hi. lia.
Qed.
