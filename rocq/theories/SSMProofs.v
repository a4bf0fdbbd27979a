(** * Sliced score matching: the expected objective *)
From Coq Require Import List ZArith Reals Lra Lia Bool.
From Verif Require Import Num Jax JaxFacts RSum GreedyProofs GreedyProofs2 SSMModel SSMSpec.
From Coquelicot Require Import Coquelicot.
Import ListNotations.
Open Scope R_scope.

Lemma Rdot_seq l m : Rdot l m = Rsum (map (fun i => nth i l 0 * nth i m 0) (seq 0 (length l))).
Proof.
  revert m. induction l as [|a l IH]; intros m; [reflexivity|].
  cbn [length seq map Rsum]. rewrite <- seq_shift, map_map. destruct m as [|b m].
  - cbn. rewrite (Rsum_zero (map _ _)); [ring|]. intros x Hx. apply in_map_iff in Hx. destruct Hx as (i & <- & _). ring.
  - unfold Rdot in *. cbn [map2 Rsum nth]. now rewrite IH.
Qed.
Lemma Rsum_delta (f : nat -> R) d a : (a < d)%nat -> Rsum (map (fun b => f b * (if Nat.eqb a b then 1 else 0)) (seq 0 d)) = f a.
Proof.
  induction d as [|d IH]; intro H; [lia|]. rewrite seq_S, map_app, Rsum_app. cbn [map Rsum Nat.add].
  destruct (Nat.eqb_spec a d) as [->|N].
  - rewrite (Rsum_zero (map _ _)); [ring|]. intros x Hx. apply in_map_iff in Hx. destruct Hx as (i & <- & Hi).
    apply in_seq in Hi. destruct (Nat.eqb_spec d i); [lia|ring].
  - rewrite IH by lia. ring.
Qed.
Lemma unit_length d a : length (unit_vector d a) = d.
Proof. unfold unit_vector. now rewrite map_length, seq_length. Qed.
Lemma nth_unit d a b : (b < d)%nat -> nth b (unit_vector d a) 0 = if Nat.eqb a b then 1 else 0.
Proof. intro H. unfold unit_vector. rewrite (nth_map_lt _ _ _ 0%nat) by now rewrite seq_length. now rewrite seq_nth. Qed.

Section Expect.
  Context {W : Type} (E : (W -> R) -> R) (HE : expectation E).
  Lemma E_zero : E (fun _ => 0) = 0.
  Proof. rewrite (ex_ext E HE _ (fun _ => 0 * 1)) by (intros; ring). rewrite (ex_scal E HE 0 (fun _ => 1)). ring. Qed.
  Lemma E_const c : E (fun _ => c) = c.
  Proof. rewrite (ex_ext E HE _ (fun _ => c * 1)) by (intros; ring). rewrite (ex_scal E HE c (fun _ => 1)), (ex_one E HE). ring. Qed.
  Lemma E_scal_r c f : E (fun w => f w * c) = E f * c.
  Proof. rewrite (ex_ext E HE _ (fun w => c * f w)) by (intros; ring). rewrite (ex_scal E HE). ring. Qed.
  Lemma E_sum {A} (f : A -> W -> R) l : E (fun w => Rsum (map (fun a => f a w) l)) = Rsum (map (fun a => E (f a)) l).
  Proof.
    induction l as [|a l IH]; cbn [map Rsum]; [apply E_zero|]. rewrite (ex_plus E HE (f a)). now rewrite IH.
  Qed.

  Variables (d : nat) (v : W -> list R).
  Hypothesis Hv : isotropic E d v.
  Lemma E_bilinear (J : nat -> nat -> R) :
    E (fun w => Rsum (map (fun a => nth a (v w) 0 * Rsum (map (fun b => J a b * nth b (v w) 0) (seq 0 d))) (seq 0 d)))
    = Rsum (map (fun a => J a a) (seq 0 d)).
  Proof.
    rewrite (E_sum (fun a w => nth a (v w) 0 * Rsum (map (fun b => J a b * nth b (v w) 0) (seq 0 d)))).
    f_equal. apply map_ext_in. intros a Ha. apply in_seq in Ha.
    rewrite (ex_ext E HE _ (fun w => Rsum (map (fun b => J a b * (nth a (v w) 0 * nth b (v w) 0)) (seq 0 d)))).
    2:{ intro w. rewrite <- Rsum_map_scal. apply Rsum_map_ext. intros; ring. }
    rewrite (E_sum (fun b w => J a b * (nth a (v w) 0 * nth b (v w) 0))).
    rewrite <- (Rsum_delta (J a) d a) by lia. f_equal. apply map_ext_in. intros b Hb. apply in_seq in Hb.
    rewrite (ex_scal E HE (J a b) (fun w => nth a (v w) 0 * nth b (v w) 0)). f_equal. apply Hv; lia.
  Qed.
End Expect.

Section Element.
  Context (jvp : (list ER -> list ER) -> list ER -> list ER -> list ER * list ER) (Hjvp : jvp_spec jvp).
  Context (d : nat) (f : list ER -> list ER) (F : list R -> list R)
    (Hf : forall y, length y = d -> f (map Fin y) = map Fin (F y) /\ length (F y) = d).
  Notation termR := (sliced_term d F).
  Lemma half_fin : half EROps = Fin (1 / 2).
  Proof. unfold half. change (fofZ EROps 2) with (Fin 2 : ER). change (f1 EROps) with (Fin 1 : ER). apply fdiv_fin. lra. Qed.
  Lemma loss_element_fin s x v : length x = d -> length v = d -> differentiable d F x ->
    loss_element EROps jvp s f (map Fin x) (map Fin v) = Fin (termR (m_use_analytic s) x v).
  Proof.
    intros Hx Hv Hd. unfold loss_element. rewrite (Hjvp d f F x v Hf Hx Hv Hd).
    rewrite <- (map_map (fun a => Derive (fun t => nth a (F (along x v t)) 0) 0) (@Fin R)), fdot_fin, half_fin.
    unfold sliced_term. destruct (m_use_analytic s).
    - assert (Em : map (fmul EROps (Fin (1 / 2))) (map Fin (F x)) = map Fin (map (fun a => 1 / 2 * a) (F x))).
      { rewrite !map_map. reflexivity. }
      rewrite Em, fdot_fin, Rdot_scal. cbn. f_equal. unfold nadd, ROps. field.
    - rewrite fdot_fin. cbn. f_equal. unfold nadd, nmul, ROps. field.
  Qed.
  Lemma expected_term {W} (E : (W -> R) -> R) (HE : expectation E) (v : W -> list R) analytic x :
    isotropic E d v -> length x = d -> differentiable d F x ->
    E (fun w => termR analytic x (v w)) = hyvarinen d F x.
  Proof.
    intros Hv Hx [J HJ]. destruct Hv as [Lv Iv]. destruct (Hf x Hx) as [_ LF].
    unfold sliced_term. rewrite (ex_plus E HE (fun w => Rdot (v w) _)). unfold hyvarinen. f_equal.
    - rewrite (ex_ext E HE _ (fun w => Rsum (map (fun a => nth a (v w) 0 * Rsum (map (fun b => J a b * nth b (v w) 0) (seq 0 d))) (seq 0 d)))).
      + rewrite (E_bilinear E HE d v (conj Lv Iv) J). unfold divergence. f_equal. apply map_ext_in. intros a Ha. apply in_seq in Ha.
        symmetry. apply is_derive_unique. pose proof (HJ (unit_vector d a) a (unit_length d a) ltac:(lia)) as D.
        replace (J a a) with (Rsum (map (fun b => J a b * nth b (unit_vector d a) 0) (seq 0 d))); [exact D|].
        rewrite <- (Rsum_delta (J a) d a) by lia. apply Rsum_map_ext. intros b Hb. apply in_seq in Hb. now rewrite nth_unit by lia.
      + intro w. rewrite Rdot_seq, Lv. apply Rsum_map_ext. intros a Ha. apply in_seq in Ha. f_equal.
        rewrite (nth_map_lt _ _ _ 0%nat) by (rewrite seq_length; lia). rewrite seq_nth by lia. apply is_derive_unique.
        apply HJ; [apply Lv|lia].
    - assert (S : Rdot (F x) (F x) = Rsum (map (fun a => a * a) (F x))).
      { unfold Rdot. f_equal. clear. induction (F x) as [|a l IH]; cbn; [reflexivity|now rewrite IH]. }
      destruct analytic.
      + rewrite (E_const E HE). now rewrite S.
      + unfold Rdiv. rewrite (E_scal_r E HE). f_equal. rewrite <- S, Rdot_seq, LF.
        rewrite (ex_ext E HE _ (fun w => Rsum (map (fun a => nth a (v w) 0 * Rsum (map (fun b => (nth a (F x) 0 * nth b (F x) 0) * nth b (v w) 0) (seq 0 d))) (seq 0 d)))).
        * apply (E_bilinear E HE d v (conj Lv Iv) (fun a b => nth a (F x) 0 * nth b (F x) 0)).
        * intro w. rewrite Rdot_seq, Lv, <- Rsum_map_scal_r. apply Rsum_map_ext. intros a _.
          rewrite (Rmult_assoc (nth a (v w) 0)). f_equal. rewrite <- Rsum_map_scal. apply Rsum_map_ext. intros; ring.
  Qed.
End Element.

Lemma map2_seq {A B C} (g : A -> B -> C) (a : list A) (b : list B) da db : length a = length b ->
  map2 g a b = map (fun i => g (nth i a da) (nth i b db)) (seq 0 (length a)).
Proof.
  revert b. induction a as [|x a IH]; intros [|y b] H; cbn in H |- *; try reflexivity; try discriminate.
  f_equal. rewrite <- seq_shift, map_map. now apply IH; injection H.
Qed.
Lemma map2_map_both {A B A' B' C} (g : A' -> B' -> C) (p : A -> A') (q : B -> B') a b :
  map2 g (map p a) (map q b) = map2 (fun x y => g (p x) (q y)) a b.
Proof. revert b. induction a as [|x a IH]; intros [|y b]; cbn; f_equal; auto. Qed.
Lemma map_map2 {A B C D} (h : C -> D) (g : A -> B -> C) a b : map h (map2 g a b) = map2 (fun x y => h (g x y)) a b.
Proof. revert b. induction a as [|x a IH]; intros [|y b]; cbn; f_equal; auto. Qed.
Lemma map2_ext_in' {A B C} (g h : A -> B -> C) a b :
  (forall x y, In x a -> In y b -> g x y = h x y) -> map2 g a b = map2 h a b.
Proof. revert b. induction a as [|x a IH]; intros [|y b] H; cbn; try reflexivity. f_equal; [apply H; now left|]. apply IH. intros; apply H; now right. Qed.
Lemma length_concat_const {A} (l : list (list A)) m : (forall x, In x l -> length x = m) -> length (concat l) = (length l * m)%nat.
Proof. induction l as [|a l IH]; intro H; cbn; [reflexivity|]. rewrite app_length, IH by (intros; apply H; now right). rewrite (H a) by now left. reflexivity. Qed.
Lemma Rsum_seq (f : list R -> R) (x : list (list R)) : Rsum (map (fun i => f (nth i x [])) (seq 0 (length x))) = Rsum (map f x).
Proof. f_equal. rewrite <- (map_map (fun i => nth i x []) f). f_equal. apply map_nth_seq. Qed.

Section Batch.
  Context (jvp : (list ER -> list ER) -> list ER -> list ER -> list ER * list ER) (Hjvp : jvp_spec jvp).
  Context (d : nat) (f : list ER -> list ER) (F : list R -> list R)
    (Hf : forall y, length y = d -> f (map Fin y) = map Fin (F y) /\ length (F y) = d)
    (Hd : forall y, length y = d -> differentiable d F y).
  Context {W : Type} (n m : nat) (vs : W -> list (list (list R))) (Hn : (0 < n)%nat) (Hm : (0 < m)%nat)
    (Hl : forall w, length (vs w) = n /\ forall l, In l (vs w) -> length l = m /\ forall v, In v l -> length v = d).
  Context (E : (W -> R) -> R) (HE : expectation E)
    (Hi : forall i j, (i < n)%nat -> (j < m)%nat -> isotropic E d (fun w => nth j (nth i (vs w) []) [])).
  Definition lossR (b : bool) (x : list (list R)) (w : W) : R :=
    Rsum (concat (map2 (fun p vecs => map (sliced_term d F b p) vecs) x (vs w))) / INR (n * m).

  Lemma standard_loss_fin s x w : length x = n -> (forall p, In p x -> length p = d) ->
    standard_loss EROps jvp s f (map (map Fin) x) (fin3 (vs w)) = Fin (lossR (m_use_analytic s) x w).
  Proof using Hjvp Hf Hd Hn Hm Hl.
    intros Lx Rx. destruct (Hl w) as [L1 L2].
    unfold standard_loss, mean_all, loss, fin3.
    assert (EQ : map2 (fun p vecs => map (loss_element EROps jvp s f p) vecs) (map (map Fin) x) (map (map (map Fin)) (vs w))
      = map (map Fin) (map2 (fun p vecs => map (sliced_term d F (m_use_analytic s) p) vecs) x (vs w))).
    { rewrite map2_map_both, map_map2. apply map2_ext_in'. intros p vecs Hp Hv. rewrite !map_map. apply map_ext_in. intros v Iv.
      apply loss_element_fin; auto. exact (proj2 (L2 _ Hv) v Iv). }
    rewrite EQ, <- concat_map, fsum_fin, map_length.
    assert (LC : length (concat (map2 (fun p vecs => map (sliced_term d F (m_use_analytic s) p) vecs) x (vs w))) = (n * m)%nat).
    { rewrite (length_concat_const _ m).
      - rewrite map2_length. rewrite Lx, L1. lia.
      - intros l Il. rewrite (map2_seq _ _ _ [] []) in Il by lia. apply in_map_iff in Il. destruct Il as (i & <- & Ii). apply in_seq in Ii.
        rewrite map_length. assert (HI : In (nth i (vs w) []) (vs w)) by (apply nth_In; lia). apply (proj1 (L2 _ HI)). }
    rewrite LC. unfold lossR. rewrite INR_IZR_INZ. change (fofZ EROps ?z) with (Fin (IZR z) : ER). apply fdiv_fin.
    rewrite <- INR_IZR_INZ. apply not_0_INR. nia.
  Qed.
  Lemma lossR_sum b x w : length x = n ->
    lossR b x w = Rsum (map (fun i => Rsum (map (fun j => sliced_term d F b (nth i x []) (nth j (nth i (vs w) []) [])) (seq 0 m))) (seq 0 n)) / INR (n * m).
  Proof using Hl Hn Hm.
    intros Lx. destruct (Hl w) as [L1 L2]. unfold lossR. f_equal. rewrite Rsum_concat, (map2_seq _ _ _ [] []) by lia. rewrite map_map, Lx.
    apply Rsum_map_ext. intros i Ii. apply in_seq in Ii. rewrite <- (map_map (fun j => nth j (nth i (vs w) []) []) (sliced_term d F b (nth i x []))).
    f_equal. f_equal. assert (HI : In (nth i (vs w) []) (vs w)) by (apply nth_In; lia). rewrite <- (proj1 (L2 _ HI)). symmetry. apply map_nth_seq.
  Qed.
  Lemma expected_loss b x : length x = n -> (forall p, In p x -> length p = d) ->
    E (lossR b x) = mean_of (hyvarinen d F) x.
  Proof using Hf Hd HE Hn Hm Hl Hi.
    intros Lx Rx. rewrite (ex_ext E HE _ _ (fun w => lossR_sum b x w Lx)). unfold mean_of, Rdiv. rewrite (E_scal_r E HE).
    rewrite (E_sum E HE (fun i w => Rsum (map (fun j => sliced_term d F b (nth i x []) (nth j (nth i (vs w) []) [])) (seq 0 m)))).
    rewrite (Rsum_map_ext _ (fun i => INR m * hyvarinen d F (nth i x []))).
    2:{ intros i Ii. apply in_seq in Ii. rewrite (E_sum E HE (fun j w => sliced_term d F b (nth i x []) (nth j (nth i (vs w) []) []))).
        rewrite (Rsum_map_ext _ (fun _ => hyvarinen d F (nth i x []))).
        - rewrite Rsum_map_const, seq_length. reflexivity.
        - intros j Ij. apply in_seq in Ij. assert (length (nth i x []) = d) by (apply Rx, nth_In; lia).
          rewrite (expected_term d f F Hf E HE (fun w => nth j (nth i (vs w) []) [])); auto. apply Hi; lia. }
    rewrite Rsum_map_scal, <- Lx, Rsum_seq, mult_INR.
    assert (0 < INR m) by (apply lt_0_INR; lia). assert (0 < INR (length x)) by (apply lt_0_INR; lia). field. lra.
  Qed.

  Lemma pow_fin g i : pow EROps (Fin g) i = Fin (g ^ i).
  Proof. induction i as [|i IH]; cbn [pow]; [reflexivity|]. rewrite IH. cbn. f_equal. unfold nmul, ROps. ring. Qed.
  Lemma perturb_fin sigma x noise :
    map2 (map2 (fun a e => fadd EROps a (fmul EROps (Fin sigma) e))) (map (map Fin) x) (map (map Fin) noise)
    = map (map Fin) (perturb sigma x noise).
  Proof.
    unfold perturb. rewrite map2_map_both, map_map2. apply map2_ext_in'. intros p e _ _. unfold along.
    rewrite map2_map_both, map_map2. reflexivity.
  Qed.
  Lemma perturb_shape sigma x noise : length x = n -> (forall p, In p x -> length p = d) ->
    length noise = n -> (forall p, In p noise -> length p = d) ->
    length (perturb sigma x noise) = n /\ forall p, In p (perturb sigma x noise) -> length p = d.
  Proof.
    intros Lx Rx Ln Rn. unfold perturb. split; [rewrite map2_length; lia|].
    intros p Ip. rewrite (map2_seq _ _ _ [] []) in Ip by lia. apply in_map_iff in Ip. destruct Ip as (i & <- & Ii). apply in_seq in Ii.
    unfold along. rewrite map2_length, (Rx (nth i x [])), (Rn (nth i noise [])); [lia| |]; apply nth_In; lia.
  Qed.
  Definition noisyR (b : bool) (sigma gamma : R) (k : nat) (x noise : list (list R)) (w : W) : R :=
    Rsum (map (fun i => (sigma * gamma ^ i) * (sigma * gamma ^ i) * lossR b (perturb (sigma * gamma ^ i) x noise) w) (seq 0 k)).
  Lemma noisy_fin s sigma gamma k x noise w : m_sigma s = Fin sigma -> m_gamma s = Fin gamma ->
    length x = n -> (forall p, In p x -> length p = d) -> length noise = n -> (forall p, In p noise -> length p = d) ->
    fori k (fun i acc =>
        let sigma := fmul EROps (m_sigma s) (pow EROps (m_gamma s) i) in
        let x_perturbed := map2 (map2 (fun a e => fadd EROps a (fmul EROps sigma e))) (map (map Fin) x) (map (map Fin) noise) in
        fadd EROps acc (fmul EROps (fmul EROps sigma sigma) (standard_loss EROps jvp s f x_perturbed (fin3 (vs w))))) (f0 EROps)
    = Fin (noisyR (m_use_analytic s) sigma gamma k x noise w).
  Proof using Hjvp Hf Hd Hn Hm Hl.
    intros Es Eg Lx Rx Ln Rn. unfold noisyR. rewrite Es, Eg. induction k as [|k IH]; [reflexivity|].
    rewrite fori_S, IH, seq_S, map_app, Rsum_app. cbn [map Rsum Nat.add]. cbv zeta. rewrite pow_fin.
    change (fmul EROps (Fin sigma) (Fin (gamma ^ k))) with (Fin (sigma * gamma ^ k) : ER).
    destruct (perturb_shape (sigma * gamma ^ k) x noise Lx Rx Ln Rn) as [L1 R1].
    rewrite perturb_fin, standard_loss_fin by assumption. cbn. f_equal. unfold nadd, nmul, ROps. ring.
  Qed.
  Lemma expected_noisy b sigma gamma k x noise : 
    length x = n -> (forall p, In p x -> length p = d) -> length noise = n -> (forall p, In p noise -> length p = d) ->
    E (noisyR b sigma gamma k x noise)
    = Rsum (map (fun i => (sigma * gamma ^ i)^2 * mean_of (hyvarinen d F) (perturb (sigma * gamma ^ i) x noise)) (seq 0 k)).
  Proof using Hf Hd HE Hn Hm Hl Hi.
    intros Lx Rx Ln Rn. unfold noisyR.
    rewrite (E_sum E HE (fun i w => (sigma * gamma ^ i) * (sigma * gamma ^ i) * lossR b (perturb (sigma * gamma ^ i) x noise) w)).
    apply Rsum_map_ext. intros i _. destruct (perturb_shape (sigma * gamma ^ i) x noise Lx Rx Ln Rn) as [L1 R1].
    rewrite (ex_scal E HE _ (lossR b (perturb (sigma * gamma ^ i) x noise))), expected_loss by assumption. f_equal. ring.
  Qed.
End Batch.
