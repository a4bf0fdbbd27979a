(** * Property theorems: coresets and motions of the feature space (C74, continued) *)
From Coq Require Import List ZArith QArith Reals Lra Lia Bool FunctionalExtensionality.
From Verif Require Import Num Jax JaxFacts RSum DataModel MeanModel GreedyModel MetricModel CholModel MapReduceModel
  KTModel KernelModel KernelSpec KernelProofs KernelProofs7 KernelProofs8 InvSpec InvProofs InvProofs2 PropInv
  InvKernelSpec InvKernel.
Import ListNotations.
Open Scope R_scope.

(** ** The shipped kernels *)
(** Moving every row by the same vector, applying a map that keeps Euclidean distances, or
    changing the unit of length together with the hyper-parameters leaves the Gramian as
    it is. *)
Theorem C74_translation :
  forall jgrad keq (k : kern R) (t : list R) xs,
  (forall a b, keq a b = true -> a = b) -> well_formed k -> stationary k ->
  (forall x, In x xs -> length x = length t) ->
  same_gramian (computed jgrad keq k) xs (computed jgrad keq k) (map (translate t) xs).
Proof.
  intros jg keq k t xs HK HW HS HL. rewrite computed_fin by assumption. apply gramian_ext.
  intros a b Ha Hb. unfold finite_kernel. f_equal. apply kfun_vsub; auto. apply vsub_translate; auto.
Qed.
Print Assumptions C74_translation.
Theorem C74_isometry :
  forall jgrad keq (k : kern R) (phi : list R -> list R) xs,
  (forall a b, keq a b = true -> a = b) -> well_formed k -> isotropic k ->
  (forall x y, In x xs -> In y xs -> sqdist (phi x) (phi y) = sqdist x y) ->
  same_gramian (computed jgrad keq k) xs (computed jgrad keq k) (map phi xs).
Proof.
  intros jg keq k phi xs HK HW HS HL. rewrite computed_fin by assumption. apply gramian_ext.
  intros a b Ha Hb. unfold finite_kernel. f_equal. apply kfun_dist; auto.
Qed.
Print Assumptions C74_isometry.
Theorem C74_units :
  forall jgrad keq (k : kern R) c xs,
  (forall a b, keq a b = true -> a = b) -> well_formed k -> has_units k -> 0 < c ->
  same_gramian (computed jgrad keq k) xs (computed jgrad keq (change_unit c k)) (map (dilate c) xs).
Proof.
  intros jg keq k c xs HK HW HU Hc. rewrite !computed_fin by (auto; now apply wf_unit). apply gramian_ext.
  intros a b Ha Hb. unfold finite_kernel. f_equal. now apply kfun_unit.
Qed.
Print Assumptions C74_units.

(** End to end: whenever the Gramians of the shipped kernels agree (in particular in the
    three cases above), the solvers select the same rows with the same weights. *)
Theorem C74_shipped_solvers :
  forall jgrad keq (k1 k2 : kern R) Y (p0 : list R) (y0 : Y) (d1 d2 : Data (list R) Y ER) size unique bs mode ord pick cached cached',
  (forall a b, keq a b = true -> a = b) -> well_formed k1 -> well_formed k2 ->
  d_x d1 <> [] -> length (d_x d1) = length (d_w d1) -> same_labels d1 d2 ->
  (forall i p, (pick i p < length (d_x d1))%nat) ->
  same_gramian (computed jgrad keq k1) (d_x d1) (computed jgrad keq k2) (d_x d2) ->
  rmap (on_fst selected) (herding_reduce EROps p0 y0 (mkHerding size (computed jgrad keq k1) unique bs mode) ord d1 cached) =
  rmap (on_fst selected) (herding_reduce EROps p0 y0 (mkHerding size (computed jgrad keq k2) unique bs mode) ord d2 cached) /\
  rmap selected (stein_reduce EROps p0 y0 (mkStein size (computed jgrad keq k1) unique bs None) ord d1) =
  rmap selected (stein_reduce EROps p0 y0 (mkStein size (computed jgrad keq k2) unique bs None) ord d2) /\
  rmap (on_fst selected) (chol_reduce EROps p0 y0 (mkChol size (computed jgrad keq k1) unique pick) d1 cached') =
  rmap (on_fst selected) (chol_reduce EROps p0 y0 (mkChol size (computed jgrad keq k2) unique pick) d2 cached').
Proof.
  intros jg keq k1 k2 Y p0 y0 d1 d2 size u bs mode ord pick st st' HK W1 W2 HN HW HL HP HG.
  rewrite !computed_fin in * by assumption. repeat split.
  - now apply C74_real_herding.
  - now apply C74_real_stein.
  - now apply C74_real_rpcholesky.
Qed.
Print Assumptions C74_shipped_solvers.

Definition ex_rows : list (list R) := [[0; 0]; [1; 0]; [3; 4]].
Definition ex_kernel : kern R := KAdd (KProd (KSE 1 2) (KLap 3 1)) (KMatern 1 1 2).
Example C74_translation_applies :
  well_formed ex_kernel /\ stationary ex_kernel /\ has_units ex_kernel /\
  (forall x, In x ex_rows -> length x = length [10; -3]) /\
  map (translate [10; -3]) ex_rows <> ex_rows.
Proof.
  split; [cbn; repeat split; try lra; lia|]. split; [cbn; auto|]. split; [cbn; auto|]. split.
  - intros x [<-|[<-|[<-|[]]]]; reflexivity.
  - cbn. intros H. injection H. intros. lra.
Qed.
(** swapping the two coordinates keeps distances *)
Example C74_isometry_applies :
  isotropic (KProd (KRQ 1 1 2) (KPer 1 1 2)) /\
  forall x y, In x ex_rows -> In y ex_rows -> sqdist (rev x) (rev y) = sqdist x y.
Proof.
  split; [cbn; auto|]. intros x y [<-|[<-|[<-|[]]]] [<-|[<-|[<-|[]]]]; cbn; lra.
Qed.
Example C74_shipped_solvers_applies :
  let d1 := mkData ex_rows (repeat (Fin 1) 3) (@None (list unit)) in
  let d2 := mkData (map (translate [10; -3]) ex_rows) (repeat (Fin 1) 3) None in
  forall jgrad keq, (forall a b, keq a b = true -> a = b) ->
  d_x d1 <> [] /\ length (d_x d1) = length (d_w d1) /\ same_labels d1 d2 /\
  same_gramian (computed jgrad keq ex_kernel) (d_x d1) (computed jgrad keq ex_kernel) (d_x d2).
Proof.
  intros d1 d2 jg keq HK. repeat split; try discriminate.
  destruct C74_translation_applies as (A & B & _ & C & _). apply C74_translation; auto.
Qed.

(** ** MapReduce *)
(** MapReduce also shows the padding row to the tree and to the base solver: it commutes
    with every map that keeps the zero row, when its base solver and its tree do. *)
Theorem C74_map_reduce :
  forall V (O : FOps V) P Q Y (phi : P -> Q) (p0 : P) (y0 : Y) base base' tree tree' leaf fuel (d : Data P Y V),
  (forall e, base' (map_data phi e) = rmap (map_coreset phi) (base e)) ->
  (forall xs w n, tree' (map phi xs) w n = tree xs w n) ->
  map_reduce O (phi p0) y0 base' tree' leaf fuel (map_data phi d) =
  rmap (map_coreset phi) (map_reduce O p0 y0 base tree leaf fuel d).
Proof. intros. now apply map_reduce_nat. Qed.
Print Assumptions C74_map_reduce.

(** first-pivot RPCholesky on the line with the kernel that is 1 on equal and 0 on distinct
    points, and a tree that sorts rows *)
Definition same_point (a b : Z) : EQ := if (a =? b)%Z then Fin 1%Q else Fin 0%Q.
Definition first_chol (d : Data Z unit EQ) : result (Coresubset Z unit EQ) :=
  do r <- chol_reduce EQOps 0%Z tt (mkChol 1 same_point true (fun _ _ => 0%nat)) d None; Ok (fst r).
Fixpoint insert_row (r : Z * nat) (l : list (Z * nat)) : list (Z * nat) :=
  match l with [] => [r] | s :: t => if (fst r <=? fst s)%Z then r :: l else s :: insert_row r t end.
Definition sort_tree (xs : list Z) (_ : list EQ) (_ : nat) : list nat :=
  map snd (fold_right insert_row [] (combine xs (seq 0 (length xs)))).
(** the base solver commutes with every injection of the line: in particular with shifts *)
Lemma first_chol_shift t e :
  first_chol (map_data (Z.add t) e) = rmap (map_coreset (Z.add t)) (first_chol e).
Proof.
  assert (EK : pull (Z.add t) same_point = same_point).
  { apply functional_extensionality. intros a. apply functional_extensionality. intros b.
    unfold pull, same_point. replace (t + a =? t + b)%Z with (a =? b)%Z; [reflexivity|].
    apply Bool.eq_iff_eq_true. rewrite !Z.eqb_eq. lia. }
  assert (HE : d_x e = [] \/ (0 < d_len e)%nat) by (unfold d_len; destruct (d_x e); cbn; [auto|right; lia]).
  unfold first_chol. destruct HE as [HE|HE].
  - destruct e as [x w y]. cbn in HE. subst x. unfold map_data. cbn [d_x d_w d_y map].
    change (map_data (Z.add t)) with (@map_data Z Z unit EQ (Z.add t)).
    reflexivity.
  - rewrite (chol_nat EQOps (Z.add t) 0%Z 0%Z tt) by (right; intros; exact HE).
    unfold pull_chol. cbn [ch_size ch_kernel ch_unique ch_pick]. rewrite EK, bind_rmap, rmap_bind.
    apply bind_ext. intros [c g] _. reflexivity.
Qed.
Lemma sort_tree_shift t xs w n : sort_tree (map (Z.add t) xs) w n = sort_tree xs w n.
Proof.
  unfold sort_tree. rewrite map_length. generalize (seq 0 (length xs)). intros l.
  assert (H : fold_right insert_row [] (combine (map (Z.add t) xs) l) =
              map (fun p => (t + fst p, snd p)%Z) (fold_right insert_row [] (combine xs l))).
  { revert l. induction xs as [|x xs IH]; intros [|i l]; cbn; auto. rewrite IH.
    generalize (fold_right insert_row [] (combine xs l)). intros m.
    induction m as [|q m IHm]; cbn; auto.
    replace (t + x <=? t + fst q)%Z with (x <=? fst q)%Z by (apply Bool.eq_iff_eq_true; rewrite !Z.leb_le; lia).
    destruct (x <=? fst q)%Z; cbn; [reflexivity|]. now rewrite IHm. }
  rewrite H, map_map. reflexivity.
Qed.
Theorem C74_map_reduce_translation_refuted :
  exists (base : Data Z unit EQ -> result (Coresubset Z unit EQ)) tree leaf fuel t d,
    (forall e, base (map_data (Z.add t) e) = rmap (map_coreset (Z.add t)) (base e)) /\
    (forall xs w n, tree (map (Z.add t) xs) w n = tree xs w n) /\
    rmap selected (map_reduce EQOps 0%Z tt base tree leaf fuel (map_data (Z.add t) d)) <>
    rmap selected (map_reduce EQOps 0%Z tt base tree leaf fuel d).
Proof.
  exists first_chol, sort_tree, 2%nat, 5%nat, (-10)%Z, (mkData [1; 2; 3]%Z (repeat (Fin 1%Q) 3) None).
  split; [apply first_chol_shift|]. split; [apply sort_tree_shift|].
  vm_compute. intros H. discriminate.
Qed.
Print Assumptions C74_map_reduce_translation_refuted.

(** ** The hypotheses of the theorems of PropInv.v, with and without the padding row *)
Definition line_kernel (a b : Z) : EQ := Fin (10 - inject_Z (Z.abs (a - b)))%Q.
Definition line_data (xs : list Z) : Data Z unit EQ := mkData xs [Fin 1%Q; Fin 2%Q; Fin 1%Q] None.
Definition ex_herding : herding := mkHerding 2 line_kernel true (BOne (Some 2%Z)) (@Greedy EQ).
Example C74_herding_reduce_applies :
  let d1 := line_data [0; 1; 3]%Z in let d2 := line_data [7; 8; 10]%Z in
  same_labels d1 d2 /\ same_gramian line_kernel (0%Z :: d_x d1) line_kernel (7%Z :: d_x d2) /\
  (let r := rmap (fun a => c_idx (fst a)) (herding_reduce EQOps 0%Z tt ex_herding (fun n => seq 0 n) d1 None) in
   r = Ok [1; 0]%Z) /\
  rmap (fun a => c_idx (fst a)) (herding_reduce EQOps 7%Z tt ex_herding (fun n => seq 0 n) d2 None) = Ok [1; 0]%Z.
Proof. cbn zeta. repeat split; vm_compute; reflexivity. Qed.
(** two data sets on different sides: MMD, weights *)
Example C74_mmd_applies :
  same_gramian line_kernel (0 :: [0; 1; 3] ++ [2; 5])%Z line_kernel (7 :: [7; 8; 10] ++ [9; 12])%Z.
Proof. vm_compute. reflexivity. Qed.
Example C74_real_herding_applies :
  let d1 := mkData [0; 1; 3]%Z (repeat (Fin 1) 3) (@None (list unit)) in
  let d2 := mkData [107; 108; 110]%Z (repeat (Fin 1) 3) None in
  let k := fun a b : Z => exp (- IZR (Z.abs (a - b))) in
  d_x d1 <> [] /\ length (d_x d1) = length (d_w d1) /\ same_labels d1 d2 /\
  same_gramian (finite_kernel k) (d_x d1) (finite_kernel k) (d_x d2).
Proof. cbn zeta. repeat split; discriminate. Qed.
(** reflection of the line keeps the zero row, the kernel and a tree that sorts by size *)
Example C74_map_reduce_applies :
  let base := fun d => do r <- herding_reduce EQOps 0%Z tt (mkHerding 1 line_kernel true (BOne (Some 2%Z)) (@Greedy EQ)) (fun n => seq 0 n) d None; Ok (fst r) in
  let tree := fun xs w n => sort_tree (map Z.abs xs) w n in
  (forall e, base (map_data Z.opp e) = rmap (map_coreset Z.opp) (base e)) /\
  (forall xs w n, tree (map Z.opp xs) w n = tree xs w n) /\
  rmap selected (map_reduce EQOps 0%Z tt base tree 2 5 (line_data [1; 2; -3]%Z)) =
  rmap selected (map_reduce EQOps 0%Z tt base tree 2 5 (line_data [-1; -2; 3]%Z)).
Proof.
  intros base tree.
  assert (HB : forall e, base (map_data Z.opp e) = rmap (map_coreset Z.opp) (base e)).
  { intros e. unfold base. rewrite (herding_reduce_nat EQOps Z.opp 0%Z 0%Z tt).
    - unfold pull_herding. cbn [h_size h_kernel h_unique h_bs h_mode].
      assert (EK : pull Z.opp line_kernel = line_kernel).
      { apply functional_extensionality. intros a. apply functional_extensionality. intros b.
        unfold pull, line_kernel. replace (Z.abs (- a - - b)) with (Z.abs (a - b)) by lia. reflexivity. }
      rewrite EK, bind_rmap, rmap_bind. apply bind_ext. intros [c g] _. reflexivity.
    - now apply compute_mean_nat.
    - left. reflexivity.
    - left. reflexivity. }
  assert (HT : forall xs w n, tree (map Z.opp xs) w n = tree xs w n).
  { intros. unfold tree. rewrite map_map. f_equal. apply map_ext. intros. apply Z.abs_opp. }
  split; [exact HB|]. split; [exact HT|].
  change (line_data [-1; -2; 3]%Z) with (map_data Z.opp (line_data [1; 2; -3]%Z)).
  rewrite (C74_map_reduce _ EQOps _ _ _ Z.opp 0%Z tt base base tree tree 2 5) by assumption.
  destruct (map_reduce EQOps 0%Z tt base tree 2 5 (line_data [1; 2; -3]%Z)); reflexivity.
Qed.
