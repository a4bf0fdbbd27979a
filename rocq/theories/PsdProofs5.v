(** * Gramians and weighted point sets *)
From Coq Require Import List ZArith Reals Lia Lra.
From Verif Require Import Num Jax RSum JaxFacts MetricSpec MetricProofs MetricProofs2 MeanModel KernelModel KernelSpec KernelProofs
  KernelProofs4 KernelProofs7 KernelProofs8 PsdProofs PsdProofs4 PsdSpec.
Import ListNotations.
Open Scope R_scope.

Lemma gram_bil (f : list R -> list R -> R) xs : forall ys v w, length v = length xs -> length w = length ys ->
  Rdot v (Rmv (pairwise f xs ys) w) = bil f (combine xs v) (combine ys w).
Proof.
  assert (R1 : forall a ys w, length w = length ys -> Rdot (map (f a) ys) w = Rsum (map (fun n => snd n * f a (fst n)) (combine ys w))).
  { intros a ys. induction ys; intros [|b w] H; try discriminate; [reflexivity|].
    unfold Rdot in *. cbn [map map2 combine Rsum fst snd]. change (Rsum (?a :: ?l)) with (a + Rsum l). rewrite IHys by (cbn in H; lia). f_equal. ring. }
  intros ys v w. revert v. induction xs; intros [|b v] H L; try discriminate; [reflexivity|].
  unfold bil. cbn [combine map]. change (Rsum (?a :: ?l)) with (a + Rsum l). fold (bil f (combine xs v) (combine ys w)).
  rewrite <- IHxs by (cbn in H; lia || auto). unfold pairwise, Rmv. cbn [map]. unfold Rdot at 1. cbn [map2].
  change (Rsum (?a :: ?l)) with (a + Rsum l). cbn [fst snd]. now rewrite <- R1 by auto.
Qed.
Lemma lift_points d (xs : list (list R)) : (forall x, In x xs -> length x = d) -> exists ps : list (point d), map pt ps = xs.
Proof.
  induction xs; intro H; [now exists []|]. destruct IHxs as (ps & E); [intros; apply H; now right|].
  exists (exist _ a (H a (or_introl eq_refl)) :: ps). cbn. now rewrite E.
Qed.
Lemma bil_pt {d} (f : list R -> list R -> R) (ms ns : list (point d * R)) :
  bil (fun p q => f (pt p) (pt q)) ms ns = bil f (map (fun m => (pt (fst m), snd m)) ms) (map (fun m => (pt (fst m), snd m)) ns).
Proof. unfold bil. rewrite map_map. apply Rsum_map_ext. intros m _. cbn [fst snd]. now rewrite map_map. Qed.
Lemma nth_pairwise {A B} (f : A -> A -> B) xs i j a b : (i < length xs)%nat -> (j < length xs)%nat ->
  nth j (nth i (pairwise f xs xs) []) b = f (nth i xs a) (nth j xs a).
Proof.
  intros Hi Hj. unfold pairwise. rewrite nth_indep with (d' := map (fun b => f a b) xs) by (now rewrite map_length).
  rewrite map_nth with (f := fun a => map (fun b => f a b) xs). rewrite nth_indep with (d' := f (nth i xs a) a) by (now rewrite map_length).
  now rewrite map_nth with (f := fun b => f (nth i xs a) b).
Qed.
Lemma nth_pairwise_out {A} (f : A -> A -> R) xs i j : (length xs <= i)%nat \/ (length xs <= j)%nat -> nth j (nth i (pairwise f xs xs) []) 0 = 0.
Proof.
  intro H. destruct (Nat.lt_ge_cases i (length xs)) as [L|L].
  - apply nth_overflow. destruct H; [lia|]. unfold pairwise. destruct xs as [|x0 xs]; [cbn in L; lia|].
    rewrite nth_indep with (d' := map (fun b => f x0 b) (x0 :: xs)) by (now rewrite map_length).
    rewrite map_nth with (f := fun a => map (fun b => f a b) (x0 :: xs)). now rewrite map_length.
  - rewrite (nth_overflow (pairwise f xs xs)) by (unfold pairwise; now rewrite map_length). now destruct j.
Qed.
Lemma psd_to_matrix d (f : list R -> list R -> R) xs : psd (fun p q : point d => f (pt p) (pt q)) ->
  (forall x, In x xs -> length x = d) -> psd_matrix (pairwise f xs xs).
Proof.
  intros [S P] L. destruct (lift_points d xs L) as (ps & <-).
  assert (LN : length (pairwise f (map pt ps) (map pt ps)) = length ps) by (unfold pairwise; now rewrite !map_length).
  split; [|split].
  - rewrite LN. split; [exact LN|]. intros row H. apply in_map_iff in H as (a & <- & _). now rewrite !map_length.
  - intros i j. destruct (Nat.lt_ge_cases i (length ps)); [destruct (Nat.lt_ge_cases j (length ps))|].
    + rewrite !(nth_pairwise f _ _ _ []) by (rewrite map_length; auto).
      destruct ps as [|p0 ps]; [cbn in *; lia|].
      rewrite !(nth_indep _ [] (pt p0)) by (rewrite map_length; auto). rewrite !map_nth. apply S.
    + rewrite !nth_pairwise_out by (rewrite map_length; lia). reflexivity.
    + rewrite !nth_pairwise_out by (rewrite map_length; lia). reflexivity.
  - intros v Hv. rewrite LN in Hv. rewrite gram_bil by (rewrite map_length; auto).
    specialize (P (combine ps v)). rewrite bil_pt in P.
    replace (combine (map pt ps) v) with (map (fun m : point d * R => (pt (fst m), snd m)) (combine ps v)); auto.
    clear. revert v. induction ps; intros [|b v]; cbn; auto. now rewrite IHps.
Qed.

Section Kernels.
  Variable jgrad : (list ER -> ER) -> list ER -> list ER.
  Variable keq : kern ER -> kern ER -> bool.
  Hypothesis keq_sound : forall a b, keq a b = true -> a = b.
  Notation val k := (m_val (methods EROps ERT jgrad keq k)).
  Definition real_psd d (k : kern ER) : Prop := exists f : list R -> list R -> R,
    (forall x y, length x = d -> length y = d -> val k (map Fin x) (map Fin y) = Sc (Fin (f x y))) /\
    psd (fun p q : point d => f (pt p) (pt q)).
  Lemma compute_pairwise k xs f : (forall x y, In x xs -> In y xs -> val k (map Fin x) (map Fin y) = Sc (Fin (f x y))) ->
    k_compute EROps ERT jgrad keq k (IPoints (map (map Fin) xs)) (IPoints (map (map Fin) xs)) = map (map (fun v => Sc (Fin v))) (pairwise f xs xs).
  Proof.
    intro H. unfold k_compute, pairwise. cbn [atleast_2d]. rewrite !map_map. apply map_ext_in. intros x Hx.
    rewrite !map_map. apply map_ext_in. intros y Hy. now apply H.
  Qed.
  Lemma gramian_real d k : real_psd d k -> psd_gramian jgrad keq d k.
  Proof.
    intros (f & V & P) xs L. exists (pairwise f xs xs). split; [unfold pairwise; apply map_length|]. split; [now apply (psd_to_matrix d)|].
    apply compute_pairwise. intros. apply V; auto.
  Qed.
  Definition untn (t : ten ER) : R := match t with Sc (Fin v) => v | _ => 0 end.
  Lemma gramian_entries d k xs : psd_gramian jgrad keq d k -> (forall x, In x xs -> length x = d) ->
    let f x y := untn (val k (map Fin x) (map Fin y)) in
    (forall x y, In x xs -> In y xs -> val k (map Fin x) (map Fin y) = Sc (Fin (f x y))) /\ psd_matrix (pairwise f xs xs).
  Proof.
    intros H L f. destruct (H xs L) as (G & LG & PG & E).
    unfold k_compute, pairwise in E. cbn [atleast_2d] in E. rewrite !map_map in E.
    assert (EG : G = pairwise f xs xs).
    { unfold pairwise, f. assert (E2 := f_equal (map (map untn)) E). rewrite !map_map in E2.
      transitivity (map (fun x => map untn (map (fun v => Sc (Fin v)) x)) G).
      - symmetry. erewrite map_ext; [apply map_id|]. intro r. rewrite map_map. apply map_id.
      - rewrite <- E2. apply map_ext. intro a. rewrite !map_map. reflexivity. }
    split; [|now rewrite <- EG].
    intros x y Hx Hy.
    assert (I : In (map (fun b => val k (map Fin x) b) (map (map Fin) xs)) (map (map (fun v => Sc (Fin v))) G)).
    { rewrite <- E. apply in_map_iff. now exists x. }
    apply in_map_iff in I as (r & Er & _).
    assert (I : In (val k (map Fin x) (map Fin y)) (map (fun v => Sc (Fin v)) r)).
    { rewrite Er. apply in_map. now apply in_map. }
    apply in_map_iff in I as (v & Ev & _). unfold f. now rewrite <- Ev.
  Qed.
  Lemma real_gramian d k : psd_gramian jgrad keq d k -> real_psd d k.
  Proof.
    intro H. exists (fun x y => untn (val k (map Fin x) (map Fin y))). split.
    - intros x y Hx Hy. apply (gramian_entries d k [x; y] H); cbn; try tauto. intros z [<-|[<-|[]]]; auto.
    - split.
      + intros p q. destruct (gramian_entries d k [pt p; pt q] H) as (_ & _ & S & _).
        * intros z [<-|[<-|[]]]; apply pt_len.
        * exact (S 0%nat 1%nat).
      + intro ms. rewrite (bil_pt (fun x y => untn (val k (map Fin x) (map Fin y)))).
        destruct (gramian_entries d k (map (fun m => pt (fst m)) ms) H) as (_ & _ & _ & Q).
        * intros z Hz. apply in_map_iff in Hz as (m & <- & _). apply pt_len.
        * specialize (Q (map snd ms)). rewrite gram_bil in Q by (now rewrite !map_length).
          replace (combine (map (fun m : point d * R => pt (fst m)) ms) (map snd ms)) with (map (fun m : point d * R => (pt (fst m), snd m)) ms) in Q.
          -- apply Q. unfold pairwise. now rewrite !map_length.
          -- clear. induction ms; cbn; auto. now rewrite IHms.
  Qed.
  Lemma real_add d a b : real_psd d a -> real_psd d b -> real_psd d (KAdd a b).
  Proof.
    intros (f & Vf & Pf) (g & Vg & Pg). exists (fun x y => f x y + g x y). split; [|now apply psd_add].
    intros x y Hx Hy. cbn [methods add_meth m_val]. now rewrite Vf, Vg.
  Qed.
  Lemma real_const d c : 0 <= c -> real_psd d (KConst (Fin c)).
  Proof. intro H. exists (fun _ _ => c). split; [reflexivity|now apply psd_const]. Qed.
  Lemma real_prod d a b : real_psd d a -> real_psd d b -> real_psd d (KProd a b).
  Proof.
    intros (f & Vf & Pf) (g & Vg & Pg). exists (fun x y => f x y * g x y). split; [|now apply psd_mul].
    intros x y Hx Hy. cbn [methods prod_meth m_val]. destruct (keq a b) eqn:E.
    - apply keq_sound in E. subst b. assert (E : f x y = g x y) by (specialize (Vf x y Hx Hy); rewrite Vg in Vf; congruence).
      rewrite Vf by auto. cbn [tmap]. rewrite sq_fin. rewrite <- E. do 2 f_equal. ring.
    - now rewrite Vf, Vg.
  Qed.
  Lemma real_pow d a n : (0 <= n)%Z -> real_psd d a -> real_psd d (KPow a n).
  Proof.
    intros N (f & Vf & Pf). exists (fun x y => f x y ^ Z.to_nat n). split; [|now apply psd_pow].
    intros x y Hx Hy. cbn [methods pow_meth m_val]. rewrite Vf by auto. cbn [tmap]. now rewrite fpowi_fin.
  Qed.
  Lemma real_shipped d k : well_formed k -> one_dim_ok d k -> real_psd d (lift k).
  Proof.
    intros W O. exists (kfun k). split; [|now apply kernel_psd]. intros. now apply kernel_value.
  Qed.
End Kernels.

(** ** Periodic and Poisson kernels in two dimensions *)
Definition square (a : R) : list (list R) := [[0; 0]; [a; 0]; [a; a]; [0; a]].
Lemma square_energy (g : R -> R) a : 0 < a ->
  Rdot [1; -1; 1; -1] (Rmv (pairwise (fun x y => g (dist2 x y)) (square a) (square a)) [1; -1; 1; -1])
  = 4 * (g 0 + g (a * sqrt 2) - 2 * g a).
Proof.
  intro H.
  assert (D0 : forall x, dist2 x x = 0) by (intro; unfold dist2; now rewrite sqdist_refl, sqrt_0).
  assert (SA : forall u v, dist2 u v = sqrt (sqdist u v)) by reflexivity.
  assert (S1 : sqrt (a * a) = a) by (apply sqrt_square; lra).
  assert (S2 : sqrt (a * a * 2) = a * sqrt 2) by (rewrite sqrt_mult, S1 by nra; reflexivity).
  assert (E : forall u v w z, dist2 [u; v] [w; z] = sqrt ((u - w) * (u - w) + (v - z) * (v - z))).
  { intros. unfold dist2, sqdist, vsub, Rdot. cbn [map2 Rsum]. f_equal. unfold Rsum. cbn. change (n0 ROps) with 0. ring. }
  unfold square, pairwise, Rmv, Rdot. cbn [map map2]. unfold Rsum. cbn [fold_right]. rewrite !D0, !E.
  repeat match goal with |- context [sqrt (?u + ?v)] =>
    let t := constr:(u + v) in
    first [ replace t with (a * a) by ring | replace t with (a * a * 2) by ring ] end.
  rewrite ?S1, ?S2. ring.
Qed.
