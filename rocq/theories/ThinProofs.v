(** * Proofs about SteinThinning as a whole *)
From Coq Require Import List ZArith Reals Lra Lia Bool Permutation.
From Coquelicot Require Import Coquelicot.
From Verif Require Import Num Jax RSum JaxFacts DataModel MeanModel MeanSpec GreedySpec GreedyModel DataMeanLemmas GreedyProofs4 GreedyProofs5
  KernelModel KernelSpec KernelProofs4 KernelProofs7 KernelProofs8 PropKernel ScoreModel ScoreSpec ScoreProofs ThinModel ThinSpec KTProofs4.
Import ListNotations.
Open Scope R_scope.

(** ** the greedy selection commutes with a change of representation of the points *)
Section GreedyMap.
  Context {V : Type} (O : FOps V) {P P' Y : Type} (p0 : P) (y0 : Y) (f : P -> P') (k : P' -> P' -> V).
  Notation kf := (fun a b => k (f a) (f b)).
  Definition cmap (c : Coresubset P Y V) : Coresubset P' Y V := mkCS (c_idx c) (c_w c) (dmap f (c_pre c)).
  Definition rmap {A B} (g : A -> B) (r : result A) : result B := match r with Ok a => Ok (g a) | Err e => Err e end.
  Lemma jget_map {A B} (g : A -> B) d l i : jget (g d) (map g l) i = g (jget d l i).
  Proof. unfold jget. rewrite map_length. apply map_nth. Qed.
  Lemma kcol_map x p : kcol k (map f x) (f p) = kcol kf x p.
  Proof. unfold kcol. now rewrite map_map. Qed.
  Lemma greedy_body_map x dw cw sel unique ord i s :
    greedy_body O (f p0) k (map f x) dw cw sel unique ord i s = greedy_body O p0 kf x dw cw sel unique ord i s.
  Proof. unfold greedy_body. cbv zeta. rewrite !jget_map, !kcol_map. reflexivity. Qed.
  Lemma fori_ext {S} n (b b' : nat -> S -> S) s : (forall i s, b i s = b' i s) -> fori n b s = fori n b' s.
  Proof. intro H. unfold fori. revert s. induction (seq 0 n) as [|i l IH]; intro s; cbn; [reflexivity|]. now rewrite H, IH. Qed.
  Lemma gather_map d idx : gather (f p0) (map f d) idx = map f (gather p0 d idx).
  Proof. unfold gather. rewrite map_map. apply map_ext. intro. apply jget_map. Qed.
  Lemma points_map c : points O (f p0) y0 (cmap c) = dmap f (points O p0 y0 c).
  Proof. unfold points, cmap, d_getitem, dmap. cbn [c_idx c_w c_pre d_x d_w d_y]. now rewrite gather_map. Qed.
  Lemma greedy_selection_map c sel m unique bs ord :
    greedy_selection O (f p0) y0 (cmap c) sel m k unique bs ord = rmap cmap (greedy_selection O p0 y0 c sel m kf unique bs ord).
  Proof.
    unfold greedy_selection. cbv zeta. unfold cmap at 1 2 3 4 5 6 7. cbn [c_idx c_w c_pre].
    unfold unpack2. cbn [dmap d_y d_x d_w]. destruct (d_y (c_pre c)) eqn:E; [reflexivity|]. cbn [bind].
    match goal with |- context [points O (f p0) y0 (mkCS ?i ?w ?p)] => change (mkCS i w p) with (cmap (mkCS i w (c_pre c))) end.
    rewrite points_map. change (as_data O (map f (d_x (c_pre c)))) with (dmap f (mkData (Y := Y) (d_x (c_pre c)) (d_w (as_data (Y := Y) O (map f (d_x (c_pre c))))) None)).
    replace (mkData (d_x (c_pre c)) (d_w (as_data O (map f (d_x (c_pre c))))) None) with (as_data (Y := Y) O (d_x (c_pre c)))
      by (unfold as_data; cbn; now rewrite map_length).
    rewrite compute_mean_map. destruct (compute_mean _ _ _ _ _ _ _ _) as [m'|]; [|reflexivity]. cbn [bind]. destruct m'; [reflexivity|].
    cbn [rmap]. unfold cmap. cbn [c_idx c_w c_pre]. f_equal.
    erewrite (fori_ext m _ (greedy_body O p0 kf (d_x (c_pre c)) _ _ _ _ _)) by (intros; apply greedy_body_map). reflexivity.
  Qed.
End GreedyMap.

Section SteinMap.
  Context {V : Type} (O : FOps V) {P P' Y : Type} (p0 : P) (y0 : Y) (f : P -> P').
  Definition smap (s : stein (V := V) (P := P')) : stein (V := V) (P := P) :=
    mkStein (s_size s) (fun a b => s_kernel s (f a) (f b)) (s_unique s) (s_bs s)
      (option_map (fun q => let '(lam, lp, lap) := q in (lam, fun x w => lp (map f x) w, fun x => lap (map f x))) (s_reg s)).
  Lemma stein_refine_map s ord (c : Coresubset P Y V) :
    stein_refine O (f p0) y0 s ord (cmap f c) = rmap (cmap f) (stein_refine O p0 y0 (smap s) ord c).
  Proof.
    unfold stein_refine, unpack2. cbn [cmap c_pre dmap d_y d_x d_w]. destruct (d_y (c_pre c)) eqn:E; [reflexivity|]. cbn [bind].
    rewrite greedy_selection_map. cbn [smap s_size s_kernel s_unique s_bs cmap c_idx]. f_equal.
    f_equal. rewrite map_map. unfold stein_terms. cbn [smap s_reg]. destruct (s_reg s) as [[[lam lp] lap]|]; reflexivity.
  Qed.
  Lemma initial_map fill m (d : Data P Y V) :
    initial_coresubset O (f p0) y0 fill m (dmap f d) = rmap (cmap f) (initial_coresubset O p0 y0 fill m d).
  Proof.
    unfold initial_coresubset, cs_init, d_len. change (mkCS (repeat fill m) (repeat (f0 O) m) (dmap f d)) with (cmap f (mkCS (repeat fill m) (repeat (f0 O) m) d)).
    rewrite points_map. unfold dmap at 2. cbn [d_x dmap]. rewrite !map_length. destruct (_ <? _)%nat; reflexivity.
  Qed.
End SteinMap.

Section Thin.
  Context {Y : Type} (y0 : Y).
  Variable jgrad : (list ER -> ER) -> list ER -> list ER.
  Variable keq : kern ER -> kern ER -> bool.
  Variable jac : (list ER -> list ER) -> list ER -> list (list ER).
  Variable kde_logpdf : list (list ER) -> list ER -> list (list ER) -> list ER.
  Lemma thin_reduce_map {P} (p0 : P) (f : P -> list ER) (k : P -> P -> R) t kernel ord (xs : list P) dw :
    (forall a b, m_val (methods EROps ERT jgrad keq (t_kernel t)) (f a) (f b) = Sc (Fin (k a b))) ->
    convert_stein_kernel EROps ERT jgrad keq (map f xs) (t_kernel t) (t_score t) = Ok kernel ->
    thin_reduce EROps ERT jgrad keq jac kde_logpdf (f p0) y0 t ord (mkData (map f xs) dw None)
    = rmap (cmap f) (stein_reduce EROps p0 y0
        (mkStein (t_size t) (fun a b => Fin (k a b)) (t_unique t) (t_bs t)
          (if t_regularise t then
             Some (t_lambda t, fun x w => kde_logpdf (map f x) w (map f x),
                   fun x => map (laplace_positive EROps jac (score_function kernel)) (map f x))
           else None)) ord (mkData xs dw None)).
  Proof.
    intros HK HC. unfold thin_reduce, stein_reduce. change (mkData (map f xs) dw None) with (dmap (Y := Y) f (mkData xs dw None)).
    rewrite initial_map. cbn [s_size]. unfold initial_coresubset, cs_init. destruct (_ <? _)%nat; [reflexivity|]. cbn [rmap bind].
    unfold thin_refine, unpack2. cbn [cmap c_pre dmap d_y d_x d_w bind]. rewrite HC. cbn [bind].
    change (mkCS ?i ?w (mkData (map f xs) dw None)) with (cmap (Y := Y) f (mkCS i w (mkData xs dw None))).
    rewrite stein_refine_map. f_equal. unfold smap, thin_env. cbn [s_size s_kernel s_unique s_bs s_reg].
    assert (E : (fun a b => unsc EROps (m_val (methods EROps ERT jgrad keq (t_kernel t)) (f a) (f b))) = (fun a b => Fin (k a b))).
    { apply FunctionalExtensionality.functional_extensionality. intro a. apply FunctionalExtensionality.functional_extensionality. intro b. now rewrite HK. }
    rewrite E. destruct (t_regularise t); reflexivity.
  Qed.
End Thin.

Notation FF := (map (map Fin)).
Section Lap.
  Variable jac : (list ER -> list ER) -> list ER -> list (list ER).
  Lemma nth_FF (J : list (list R)) i (d : list ER) : (i < length J)%nat -> nth i (FF J) d = map Fin (nth i J []).
  Proof. intro H. rewrite (nth_indep _ d (map Fin [])) by now rewrite map_length. apply map_nth. Qed.
  Lemma laplace_fin s score x : jac_correct jac s score x -> (forall z, length z = length x -> s (map Fin z) = map Fin (score z)) ->
    exists L, laplace_positive EROps jac s (map Fin x) = Fin L /\ positive_laplacian score x L.
  Proof.
    intros HJ HS. destruct (HJ HS) as (J & E & B & D). exists (Rsum (map (Rmax 0) (map (fun i => nth i (nth i J []) 0) (seq 0 (length x))))).
    split; [|exists (map (fun i => nth i (nth i J []) 0) (seq 0 (length x))); split; [exact D|reflexivity]].
    unfold laplace_positive. rewrite E, map_length. rewrite <- fsum_fin, !map_map. f_equal. apply map_ext_in. intros i Hi. apply in_seq in Hi.
    destruct (B i ltac:(lia)) as [B1 B2]. rewrite nth_FF by exact B1. rewrite (nth_indep _ _ (Fin 0)) by now rewrite map_length.
    rewrite (map_nth Fin). change (f0 EROps) with (Fin 0). rewrite fmax_fin. f_equal. apply Rmax_comm.
  Qed.
  Lemma laplaces_fin s score (X : list (list R)) d : (forall x, In x X -> length x = d /\ jac_correct jac s score x) ->
    (forall z, length z = d -> s (map Fin z) = map Fin (score z)) ->
    exists Ls, map (laplace_positive EROps jac s) (FF X) = map Fin Ls /\ Forall2 (positive_laplacian score) X Ls.
  Proof.
    intros HX HS. induction X as [|x X IH]; [exists []; split; [reflexivity|constructor]|].
    destruct IH as (Ls & E & F); [intros; apply HX; now right|]. destruct (HX x (or_introl eq_refl)) as [Lx Jx].
    destruct (laplace_fin s score x Jx) as (L & E1 & P1); [intros; apply HS; congruence|].
    exists (L :: Ls). cbn [map]. rewrite E1, E. split; [reflexivity|now constructor].
  Qed.
End Lap.

(** points of a fixed dimension *)
Definition vec (d : nat) := {v : list R | length v = d}.
Definition pv {d} (v : vec d) : list R := proj1_sig v.
Lemma vec_list d (X : list (list R)) : (forall x, In x X -> length x = d) -> exists Xs : list (vec d), map pv Xs = X.
Proof.
  induction X as [|x X IH]; intro H; [exists []; reflexivity|]. destruct IH as (Xs & E); [intros; apply H; now right|].
  exists (exist _ x (H x (or_introl eq_refl)) :: Xs). cbn. now rewrite E.
Qed.
Definition vzero d : vec d := exist _ (repeat 0 d) (repeat_length 0 d).
Definition vf {d} (v : vec d) : list ER := map Fin (pv v).
Lemma vf_map d (Xs : list (vec d)) : map vf Xs = FF (map pv Xs).
Proof. unfold vf. now rewrite map_map. Qed.
Lemma Forall2_len {A B} (Q : A -> B -> Prop) l l' : Forall2 Q l l' -> length l = length l'.
Proof. induction 1; cbn; congruence. Qed.
