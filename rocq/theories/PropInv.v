(** * Property theorems: coresets depend on the data only through kernel values (C74)

    Two data sets with equal weights and responses whose points have the same Gramian give
    the same coreset, whatever the points are: same indices, same weights, same cached
    state, or the same exception.  Blocked kernel means pad with an all-zero row; in any
    arithmetic (IEEE floats included) it is enough that the Gramians agree with the padding
    row [p0], [q0] added, and in real arithmetic with a finite kernel the padding row does
    not matter. *)
From Coq Require Import List ZArith Reals Lra Lia Bool.
From Verif Require Import Num Jax JaxFacts RSum DataModel MeanModel GreedyModel MetricModel CholModel MapReduceModel
  GKPModel KTModel KernelModel KernelSpec KernelProofs KernelProofs8 InvSpec InvProofs InvProofs2.
Import ListNotations.

Section Setup.
  Context {V : Type} (O : FOps V) {P Q Y : Type} (p0 : P) (q0 : Q) (y0 : Y).
  Variables (d1 : Data P Y V) (d2 : Data Q Y V).
  Notation phi1 := (row_of p0 (p0 :: d_x d1)). Notation psi1 := (row_of q0 (q0 :: d_x d2)).
  Lemma phi_pad : p0 = row_of p0 (p0 :: d_x d1) 0%nat.
  Proof. reflexivity. Qed.
  Lemma any_side d : side (Y:=Y) (V:=V) p0 q0 phi1 psi1 d.
  Proof. repeat split; left; reflexivity. Qed.
  Lemma any_ok k1 k2 : same_gramian k1 (p0 :: d_x d1) k2 (q0 :: d_x d2) ->
    mean_nat O phi1 0%nat p0 y0 k1 /\ mean_nat O psi1 0%nat q0 y0 k2 /\ pull phi1 k1 = pull psi1 k2.
  Proof.
    intros H. split; [now apply compute_mean_nat|]. split; [now apply compute_mean_nat|].
    apply same_gramian_pull; [discriminate|exact H].
  Qed.
  Lemma any_len k1 k2 : same_gramian (V:=V) k1 (p0 :: d_x d1) k2 (q0 :: d_x d2) -> length (d_x d1) = length (d_x d2).
  Proof. intros H. apply same_gramian_length in H. cbn in H. lia. Qed.
End Setup.
Section SetupR.
  Context {P Q Y : Type} (p0 : P) (q0 : Q) (y0 : Y).
  Variables (d1 : Data P Y ER) (d2 : Data Q Y ER).
  Notation phi1 := (row_of p0 (d_x d1)). Notation psi1 := (row_of q0 (d_x d2)).
  Lemma real_ok k1 k2 : d_x d1 <> [] -> same_gramian (finite_kernel k1) (d_x d1) (finite_kernel k2) (d_x d2) ->
    mean_nat EROps phi1 0%nat p0 y0 (finite_kernel k1) /\ mean_nat EROps psi1 0%nat q0 y0 (finite_kernel k2) /\
    pull phi1 (finite_kernel k1) = pull psi1 (finite_kernel k2).
  Proof.
    intros HN H. split; [apply mean_nat_finite|]. split; [apply mean_nat_finite|].
    now apply same_gramian_pull.
  Qed.
  Lemma real_side : d_x d1 <> [] -> length (d_x d1) = length (d_w d1) ->
    side p0 q0 phi1 psi1 (numbered 0 d1).
  Proof.
    intros HN HL. repeat split; right; cbn; rewrite ?seq_length; auto;
      destruct (d_x d1); try congruence; discriminate.
  Qed.
End SetupR.

Ltac finish1 H d1 d2 :=
  rewrite numbered_map1 in H; rewrite (numbered_same 1 d1 d2) in H by assumption; rewrite numbered_map1 in H.
Ltac finish0 H d1 d2 :=
  rewrite numbered_map0 in H; rewrite (numbered_same 0 d1 d2) in H by assumption; rewrite numbered_map0 in H.
(** two data sets numbered together *)
Lemma row_of_app_l {P} (p0 : P) l m : map (row_of p0 (p0 :: l ++ m)) (seq 1 (length l)) = l.
Proof.
  apply nth_ext with (d := row_of p0 (p0 :: l ++ m) 0%nat) (d' := p0); [now rewrite map_length, seq_length|].
  rewrite map_length, seq_length. intros i Hi. rewrite (map_nth (row_of p0 (p0 :: l ++ m))), seq_nth by assumption.
  unfold row_of. replace (Nat.min (1 + i) (length (p0 :: l ++ m) - 1)) with (S i) by (cbn [length]; rewrite app_length; lia).
  cbn [nth]. apply app_nth1. exact Hi.
Qed.
Lemma row_of_app_r {P} (p0 : P) l m : map (row_of p0 (p0 :: l ++ m)) (seq (1 + length l) (length m)) = m.
Proof.
  apply nth_ext with (d := row_of p0 (p0 :: l ++ m) 0%nat) (d' := p0); [now rewrite map_length, seq_length|].
  rewrite map_length, seq_length. intros i Hi. rewrite (map_nth (row_of p0 (p0 :: l ++ m))), seq_nth by assumption.
  unfold row_of. replace (Nat.min (1 + length l + i) (length (p0 :: l ++ m) - 1)) with (S (length l + i))
    by (cbn [length]; rewrite app_length; lia).
  cbn [nth]. rewrite app_nth2 by lia. f_equal. lia.
Qed.
Lemma both {V} (O : FOps V) {P Q Y} (p0 : P) (q0 : Q) (y0 : Y) (d1 e1 : Data P Y V) (d2 e2 : Data Q Y V) k1 k2 :
  same_labels d1 d2 -> same_labels e1 e2 -> length (d_x d1) = length (d_x d2) ->
  same_gramian k1 (p0 :: d_x d1 ++ d_x e1) k2 (q0 :: d_x d2 ++ d_x e2) ->
  let phi := row_of p0 (p0 :: d_x d1 ++ d_x e1) in let psi := row_of q0 (q0 :: d_x d2 ++ d_x e2) in
  exists x y : Data nat Y V,
    (mean_nat O phi 0%nat p0 y0 k1 /\ mean_nat O psi 0%nat q0 y0 k2 /\ pull phi k1 = pull psi k2) /\
    (forall d, side (Y:=Y) (V:=V) p0 q0 phi psi d) /\
    map_data phi x = d1 /\ map_data phi y = e1 /\ map_data psi x = d2 /\ map_data psi y = e2.
Proof.
  intros [HD1 HD2] [HE1 HE2] L HG phi psi.
  assert (L2 : length (d_x e1) = length (d_x e2)).
  { apply same_gramian_length in HG. cbn in HG. rewrite !app_length in HG. lia. }
  exists (mkData (seq 1 (length (d_x d1))) (d_w d1) (d_y d1)), (mkData (seq (1 + length (d_x d1)) (length (d_x e1))) (d_w e1) (d_y e1)).
  split; [|split; [|split; [|split; [|split]]]].
  - split; [now apply compute_mean_nat|]. split; [now apply compute_mean_nat|].
    apply same_gramian_pull; [discriminate|exact HG].
  - intros d. repeat split; left; reflexivity.
  - unfold map_data. cbn [d_x d_w d_y]. unfold phi. rewrite row_of_app_l. now destruct d1.
  - unfold map_data. cbn [d_x d_w d_y]. unfold phi. rewrite row_of_app_r. now destruct e1.
  - unfold map_data. cbn [d_x d_w d_y]. unfold psi. rewrite L, row_of_app_l, HD1, HD2. now destruct d2.
  - unfold map_data. cbn [d_x d_w d_y]. unfold psi. rewrite L, L2, row_of_app_r, HE1, HE2. now destruct e2.
Qed.

(** ** Any arithmetic *)
(** kernel herding: a refinement of a given coreset, with or without cached row means *)
Theorem C74_herding_refine :
  forall V (O : FOps V) P Q Y (p0 : P) (q0 : Q) (y0 : Y) (c1 : Coresubset P Y V) (c2 : Coresubset Q Y V)
         k1 k2 size unique bs mode ord cached,
  c_idx c1 = c_idx c2 -> c_w c1 = c_w c2 -> same_labels (c_pre c1) (c_pre c2) ->
  same_gramian k1 (p0 :: d_x (c_pre c1)) k2 (q0 :: d_x (c_pre c2)) ->
  rmap (on_fst selected) (herding_refine O p0 y0 (mkHerding size k1 unique bs mode) ord c1 cached) =
  rmap (on_fst selected) (herding_refine O q0 y0 (mkHerding size k2 unique bs mode) ord c2 cached).
Proof.
  intros V O P Q Y p0 q0 y0 [i1 w1 d1] [i2 w2 d2] k1 k2 size u bs mode ord st; cbn [c_idx c_w c_pre]. intros -> -> HL HG.
  pose proof (two_herding_refine O p0 q0 y0 _ _ size k1 k2 u bs mode ord (mkCS i2 w2 (numbered 1 d1)) st
    (any_ok O p0 q0 y0 d1 d2 k1 k2 HG) (conj (any_side p0 q0 d1 d2 _) (conj (or_introl eq_refl) (or_introl eq_refl)))) as H.
  unfold map_coreset in H. cbn [c_idx c_w c_pre] in H. rewrite numbered_map1 in H.
  rewrite (numbered_same 1 d1 d2) in H by (try assumption; eapply any_len; exact HG). rewrite numbered_map1 in H. exact H.
Qed.
Print Assumptions C74_herding_refine.
Theorem C74_herding_reduce :
  forall V (O : FOps V) P Q Y (p0 : P) (q0 : Q) (y0 : Y) (d1 : Data P Y V) (d2 : Data Q Y V)
         k1 k2 size unique bs mode ord cached,
  same_labels d1 d2 -> same_gramian k1 (p0 :: d_x d1) k2 (q0 :: d_x d2) ->
  rmap (on_fst selected) (herding_reduce O p0 y0 (mkHerding size k1 unique bs mode) ord d1 cached) =
  rmap (on_fst selected) (herding_reduce O q0 y0 (mkHerding size k2 unique bs mode) ord d2 cached).
Proof.
  intros V O P Q Y p0 q0 y0 d1 d2 k1 k2 size u bs mode ord st HL HG.
  pose proof (two_herding_reduce O p0 q0 y0 _ _ size k1 k2 u bs mode ord (numbered 1 d1) st
    (any_ok O p0 q0 y0 d1 d2 k1 k2 HG) (any_side p0 q0 d1 d2 _)) as H.
  rewrite numbered_map1 in H.
  rewrite (numbered_same 1 d1 d2) in H by (try assumption; eapply any_len; exact HG). rewrite numbered_map1 in H. exact H.
Qed.
Print Assumptions C74_herding_reduce.
Theorem C74_herding_reduce_iterative :
  forall V (O : FOps V) P Q Y (p0 : P) (q0 : Q) (y0 : Y) (d1 : Data P Y V) (d2 : Data Q Y V)
         k1 k2 size unique bs mode modes ords cached iterations,
  same_labels d1 d2 -> same_gramian k1 (p0 :: d_x d1) k2 (q0 :: d_x d2) ->
  rmap (on_fst selected) (herding_reduce_iterative O p0 y0 (mkHerding size k1 unique bs mode) modes ords d1 cached iterations) =
  rmap (on_fst selected) (herding_reduce_iterative O q0 y0 (mkHerding size k2 unique bs mode) modes ords d2 cached iterations).
Proof.
  intros V O P Q Y p0 q0 y0 d1 d2 k1 k2 size u bs mode modes ords st it HL HG.
  pose proof (two_herding_iterative O p0 q0 y0 _ _ size k1 k2 u bs mode modes ords (numbered 1 d1) st it
    (any_ok O p0 q0 y0 d1 d2 k1 k2 HG) (any_side p0 q0 d1 d2 _)) as H.
  rewrite numbered_map1 in H.
  rewrite (numbered_same 1 d1 d2) in H by (try assumption; eapply any_len; exact HG). rewrite numbered_map1 in H. exact H.
Qed.
Print Assumptions C74_herding_reduce_iterative.

(** Stein thinning: the regularisation terms are evaluated at the data, so they have to
    agree there ([None]: no regularisation) *)
Definition reg_values {A V} (reg : option (option V * (list A -> list V -> list V) * (list A -> list V)))
    (d : list A) (w : list V) : option (option V * list V * list V) :=
  match reg with None => None | Some (lam, logpdf, laplace) => Some (lam, logpdf d w, laplace d) end.
Theorem C74_stein_reduce :
  forall V (O : FOps V) P Q Y (p0 : P) (q0 : Q) (y0 : Y) (d1 : Data P Y V) (d2 : Data Q Y V)
         k1 k2 size unique bs reg1 reg2 ord,
  same_labels d1 d2 -> same_gramian k1 (p0 :: d_x d1) k2 (q0 :: d_x d2) ->
  reg_values reg1 (d_x d1) (d_w d1) = reg_values reg2 (d_x d2) (d_w d2) ->
  rmap selected (stein_reduce O p0 y0 (mkStein size k1 unique bs reg1) ord d1) =
  rmap selected (stein_reduce O q0 y0 (mkStein size k2 unique bs reg2) ord d2).
Proof.
  intros V O P Q Y p0 q0 y0 d1 d2 k1 k2 size u bs r1 r2 ord HL HG HR.
  pose proof (any_len p0 q0 d1 d2 k1 k2 HG) as EL.
  pose proof (two_stein_reduce O p0 q0 y0 _ _ size k1 k2 u bs r1 r2 ord (numbered 1 d1)
    (any_ok O p0 q0 y0 d1 d2 k1 k2 HG) (any_side p0 q0 d1 d2 _)) as H.
  finish1 H d1 d2. apply H.
  cbn [numbered d_x d_w]. rewrite (row_of_seq1 q0), <- EL, (row_of_seq1 p0).
  destruct HL as [HW _]. rewrite HW in HR. exact HR.
Qed.
Print Assumptions C74_stein_reduce.

(** RPCholesky; [pick] are the random draws *)
Theorem C74_rpcholesky :
  forall V (O : FOps V) P Q Y (p0 : P) (q0 : Q) (y0 : Y) (d1 : Data P Y V) (d2 : Data Q Y V)
         k1 k2 size unique pick cached,
  same_labels d1 d2 -> same_gramian k1 (p0 :: d_x d1) k2 (q0 :: d_x d2) ->
  rmap (on_fst selected) (chol_reduce O p0 y0 (mkChol size k1 unique pick) d1 cached) =
  rmap (on_fst selected) (chol_reduce O q0 y0 (mkChol size k2 unique pick) d2 cached).
Proof.
  intros V O P Q Y p0 q0 y0 d1 d2 k1 k2 size u pick st HL HG.
  pose proof (any_len p0 q0 d1 d2 k1 k2 HG) as EL.
  pose proof (two_chol O p0 q0 y0 _ _ size k1 k2 u pick (numbered 1 d1) st
    (proj2 (proj2 (any_ok O p0 q0 y0 d1 d2 k1 k2 HG))) (or_introl (conj eq_refl eq_refl))) as H.
  finish1 H d1 d2. exact H.
Qed.
Print Assumptions C74_rpcholesky.

(** KernelThinning and CompressPlusPlus: both kernels of the solver *)
Theorem C74_kernel_thinning :
  forall V (O : FOps V) P Q Y K (p0 : P) (q0 : Q) (y0 : Y) (d1 : Data P Y V) (d2 : Data Q Y V)
         k1 k2 sq1 sq2 size delta (key : K) log split uniform choice depth ord,
  same_labels d1 d2 -> same_gramian k1 (p0 :: d_x d1) k2 (q0 :: d_x d2) ->
  same_gramian sq1 (p0 :: d_x d1) sq2 (q0 :: d_x d2) ->
  rmap selected (kt_reduce O p0 y0 (mkKT size k1 sq1 delta key log split uniform choice depth ord) d1) =
  rmap selected (kt_reduce O q0 y0 (mkKT size k2 sq2 delta key log split uniform choice depth ord) d2).
Proof.
  intros V O P Q Y K p0 q0 y0 d1 d2 k1 k2 s1 s2 size delta key log split unif choice depth ord HL HG HS.
  pose proof (any_len p0 q0 d1 d2 k1 k2 HG) as EL.
  pose proof (two_kt O p0 q0 y0 _ _ size k1 k2 s1 s2 delta key log split unif choice depth ord (numbered 1 d1)
    (any_ok O p0 q0 y0 d1 d2 k1 k2 HG) (proj2 (proj2 (any_ok O p0 q0 y0 d1 d2 s1 s2 HS))) (any_side p0 q0 d1 d2 _)) as H.
  finish1 H d1 d2. exact H.
Qed.
Print Assumptions C74_kernel_thinning.
Theorem C74_compress :
  forall V (O : FOps V) P Q Y K (p0 : P) (q0 : Q) (y0 : Y) (d1 : Data P Y V) (d2 : Data Q Y V)
         k1 k2 sq1 sq2 size delta (key : K) log split uniform choice depth ord g log4 fuel,
  same_labels d1 d2 -> same_gramian k1 (p0 :: d_x d1) k2 (q0 :: d_x d2) ->
  same_gramian sq1 (p0 :: d_x d1) sq2 (q0 :: d_x d2) ->
  rmap selected (compress_reduce O p0 y0 (mkCP g (mkKT size k1 sq1 delta key log split uniform choice depth ord) log4) fuel d1) =
  rmap selected (compress_reduce O q0 y0 (mkCP g (mkKT size k2 sq2 delta key log split uniform choice depth ord) log4) fuel d2).
Proof.
  intros V O P Q Y K p0 q0 y0 d1 d2 k1 k2 s1 s2 size delta key log split unif choice depth ord g log4 fuel HL HG HS.
  pose proof (any_len p0 q0 d1 d2 k1 k2 HG) as EL.
  pose proof (two_compress O p0 q0 y0 _ _ g log4 fuel size k1 k2 s1 s2 delta key log split unif choice depth ord (numbered 1 d1)
    (any_ok O p0 q0 y0 d1 d2 k1 k2 HG) (proj2 (proj2 (any_ok O p0 q0 y0 d1 d2 s1 s2 HS)))) as H.
  finish1 H d1 d2. exact H.
Qed.
Print Assumptions C74_compress.

(** GreedyKernelPoints: no padding row is involved *)
Theorem C74_greedy_kernel_points :
  forall V (O : FOps V) P Q K (p0 : P) (q0 : Q) (d1 : Data P V V) (d2 : Data Q V V)
         k1 k2 size reg unique candidates loss solve split permutation (key : K) cached,
  d_x d1 <> [] -> same_labels d1 d2 -> same_gramian k1 (d_x d1) k2 (d_x d2) ->
  rmap (on_fst selected) (gkp_reduce O p0 (mkGKP size k1 reg unique candidates loss solve split permutation key) d1 cached) =
  rmap (on_fst selected) (gkp_reduce O q0 (mkGKP size k2 reg unique candidates loss solve split permutation key) d2 cached).
Proof.
  intros V O P Q K p0 q0 d1 d2 k1 k2 size reg u cand loss solve split perm key st HN HL HG.
  pose proof (same_gramian_length _ _ _ _ HG) as EL.
  pose proof (same_gramian_pull p0 q0 _ _ _ _ HN HG) as EP.
  pose proof (gkp_reduce_nat O (row_of p0 (d_x d1)) 0%nat p0 (mkGKP size k1 reg u cand loss solve split perm key) (numbered 0 d1) st) as H1.
  pose proof (gkp_reduce_nat O (row_of q0 (d_x d2)) 0%nat q0 (mkGKP size k2 reg u cand loss solve split perm key) (numbered 0 d1) st) as H2.
  rewrite numbered_map0 in H1. rewrite (numbered_same 0 d1 d2) in H1, H2 by assumption. rewrite numbered_map0 in H2.
  rewrite H1, H2, !sel_map. unfold pull_gkp. cbn. rewrite EP. reflexivity.
Qed.
Print Assumptions C74_greedy_kernel_points.

(** MMD between two data sets and the weights optimisers *)
Theorem C74_mmd :
  forall V (O : FOps V) P Q Y (p0 : P) (q0 : Q) (y0 : Y) (d1 e1 : Data P Y V) (d2 e2 : Data Q Y V) k1 k2 bs,
  same_labels d1 d2 -> same_labels e1 e2 -> length (d_x d1) = length (d_x d2) ->
  same_gramian k1 (p0 :: d_x d1 ++ d_x e1) k2 (q0 :: d_x d2 ++ d_x e2) ->
  mmd_compute O p0 y0 k1 d1 e1 bs = mmd_compute O q0 y0 k2 d2 e2 bs.
Proof.
  intros V O P Q Y p0 q0 y0 d1 e1 d2 e2 k1 k2 bs HD HE LD HG.
  destruct (both O p0 q0 y0 d1 e1 d2 e2 k1 k2 HD HE LD HG) as (x & y & HO & HS & E1 & E2 & E3 & E4).
  pose proof (two_mmd O p0 q0 y0 _ _ k1 k2 x y bs HO (HS x) (HS y)) as H.
  rewrite E1, E2, E3, E4 in H. exact H.
Qed.
Print Assumptions C74_mmd.
Theorem C74_weights :
  forall V (O : FOps V) P Q Y (p0 : P) (q0 : Q) (y0 : Y) (d1 e1 : Data P Y V) (d2 e2 : Data Q Y V) k1 k2 osqp linsolve eps bs,
  same_labels d1 d2 -> same_labels e1 e2 -> length (d_x d1) = length (d_x d2) ->
  same_gramian k1 (p0 :: d_x d1 ++ d_x e1) k2 (q0 :: d_x d2 ++ d_x e2) ->
  mmdw_solve O p0 y0 osqp k1 d1 e1 eps bs = mmdw_solve O q0 y0 osqp k2 d2 e2 eps bs /\
  sbq_solve O p0 y0 linsolve k1 d1 e1 eps bs = sbq_solve O q0 y0 linsolve k2 d2 e2 eps bs.
Proof.
  intros V O P Q Y p0 q0 y0 d1 e1 d2 e2 k1 k2 osqp ls eps bs HD HE LD HG.
  destruct (both O p0 q0 y0 d1 e1 d2 e2 k1 k2 HD HE LD HG) as (x & y & HO & HS & E1 & E2 & E3 & E4).
  pose proof (two_mmdw O p0 q0 y0 _ _ osqp k1 k2 x y eps bs HO) as H.
  pose proof (two_sbq O p0 q0 y0 _ _ ls k1 k2 x y eps bs HO) as H'.
  rewrite E1, E2, E3, E4 in H, H'. now split.
Qed.
Print Assumptions C74_weights.

(** ** Real arithmetic, finite kernels: the Gramian of the data alone decides *)
Theorem C74_real_herding :
  forall P Q Y (p0 : P) (q0 : Q) (y0 : Y) (d1 : Data P Y ER) (d2 : Data Q Y ER) (k1 : P -> P -> R) (k2 : Q -> Q -> R)
         size unique bs mode ord cached,
  d_x d1 <> [] -> length (d_x d1) = length (d_w d1) ->
  same_labels d1 d2 -> same_gramian (finite_kernel k1) (d_x d1) (finite_kernel k2) (d_x d2) ->
  rmap (on_fst selected) (herding_reduce EROps p0 y0 (mkHerding size (finite_kernel k1) unique bs mode) ord d1 cached) =
  rmap (on_fst selected) (herding_reduce EROps q0 y0 (mkHerding size (finite_kernel k2) unique bs mode) ord d2 cached).
Proof.
  intros P Q Y p0 q0 y0 d1 d2 k1 k2 size u bs mode ord st HN HW HL HG.
  pose proof (same_gramian_length _ _ _ _ HG) as EL.
  pose proof (two_herding_reduce EROps p0 q0 y0 _ _ size _ _ u bs mode ord (numbered 0 d1) st
    (real_ok p0 q0 y0 d1 d2 k1 k2 HN HG) (real_side p0 q0 d1 d2 HN HW)) as H.
  finish0 H d1 d2. exact H.
Qed.
Print Assumptions C74_real_herding.
Theorem C74_real_stein :
  forall P Q Y (p0 : P) (q0 : Q) (y0 : Y) (d1 : Data P Y ER) (d2 : Data Q Y ER) (k1 : P -> P -> R) (k2 : Q -> Q -> R)
         size unique bs reg1 reg2 ord,
  d_x d1 <> [] -> length (d_x d1) = length (d_w d1) ->
  same_labels d1 d2 -> same_gramian (finite_kernel k1) (d_x d1) (finite_kernel k2) (d_x d2) ->
  reg_values reg1 (d_x d1) (d_w d1) = reg_values reg2 (d_x d2) (d_w d2) ->
  rmap selected (stein_reduce EROps p0 y0 (mkStein size (finite_kernel k1) unique bs reg1) ord d1) =
  rmap selected (stein_reduce EROps q0 y0 (mkStein size (finite_kernel k2) unique bs reg2) ord d2).
Proof.
  intros P Q Y p0 q0 y0 d1 d2 k1 k2 size u bs r1 r2 ord HN HW HL HG HR.
  pose proof (same_gramian_length _ _ _ _ HG) as EL.
  pose proof (two_stein_reduce EROps p0 q0 y0 _ _ size _ _ u bs r1 r2 ord (numbered 0 d1)
    (real_ok p0 q0 y0 d1 d2 k1 k2 HN HG) (real_side p0 q0 d1 d2 HN HW)) as H.
  finish0 H d1 d2. apply H.
  cbn [numbered d_x d_w]. rewrite (row_of_seq q0), <- EL, (row_of_seq p0).
  destruct HL as [HV _]. rewrite HV in HR. exact HR.
Qed.
Print Assumptions C74_real_stein.
(** [jr.choice] returns row numbers *)
Theorem C74_real_rpcholesky :
  forall P Q Y (p0 : P) (q0 : Q) (y0 : Y) (d1 : Data P Y ER) (d2 : Data Q Y ER) (k1 : P -> P -> R) (k2 : Q -> Q -> R)
         size unique pick cached,
  d_x d1 <> [] -> (forall i p, (pick i p < length (d_x d1))%nat) ->
  same_labels d1 d2 -> same_gramian (finite_kernel k1) (d_x d1) (finite_kernel k2) (d_x d2) ->
  rmap (on_fst selected) (chol_reduce EROps p0 y0 (mkChol size (finite_kernel k1) unique pick) d1 cached) =
  rmap (on_fst selected) (chol_reduce EROps q0 y0 (mkChol size (finite_kernel k2) unique pick) d2 cached).
Proof.
  intros P Q Y p0 q0 y0 d1 d2 k1 k2 size u pick st HN HP HL HG.
  pose proof (same_gramian_length _ _ _ _ HG) as EL.
  assert (HP' : forall i p, (pick i p < d_len (numbered 0 d1))%nat).
  { intros. unfold d_len, numbered. cbn. rewrite seq_length. apply HP. }
  pose proof (two_chol EROps p0 q0 y0 _ _ size _ _ u pick (numbered 0 d1) st
    (proj2 (proj2 (real_ok p0 q0 y0 d1 d2 k1 k2 HN HG))) (or_intror HP')) as H.
  finish0 H d1 d2. exact H.
Qed.
Print Assumptions C74_real_rpcholesky.
Theorem C74_real_thinning :
  forall P Q Y K (p0 : P) (q0 : Q) (y0 : Y) (d1 : Data P Y ER) (d2 : Data Q Y ER) (k1 sq1 : P -> P -> R) (k2 sq2 : Q -> Q -> R)
         size delta (key : K) log split uniform choice depth ord g log4 fuel,
  d_x d1 <> [] -> length (d_x d1) = length (d_w d1) -> same_labels d1 d2 ->
  same_gramian (finite_kernel k1) (d_x d1) (finite_kernel k2) (d_x d2) ->
  same_gramian (finite_kernel sq1) (d_x d1) (finite_kernel sq2) (d_x d2) ->
  let s1 := mkKT size (finite_kernel k1) (finite_kernel sq1) delta key log split uniform choice depth ord in
  let s2 := mkKT size (finite_kernel k2) (finite_kernel sq2) delta key log split uniform choice depth ord in
  rmap selected (kt_reduce EROps p0 y0 s1 d1) = rmap selected (kt_reduce EROps q0 y0 s2 d2) /\
  rmap selected (compress_reduce EROps p0 y0 (mkCP g s1 log4) fuel d1) =
  rmap selected (compress_reduce EROps q0 y0 (mkCP g s2 log4) fuel d2).
Proof.
  intros P Q Y K p0 q0 y0 d1 d2 k1 q1 k2 q2 size delta key log split unif choice depth ord g log4 fuel HN HW HL HG HS s1 s2.
  pose proof (same_gramian_length _ _ _ _ HG) as EL.
  pose proof (real_ok p0 q0 y0 d1 d2 k1 k2 HN HG) as R1. pose proof (real_ok p0 q0 y0 d1 d2 q1 q2 HN HS) as (_ & _ & R2).
  pose proof (two_kt EROps p0 q0 y0 _ _ size _ _ _ _ delta key log split unif choice depth ord (numbered 0 d1)
    R1 R2 (real_side p0 q0 d1 d2 HN HW)) as H.
  pose proof (two_compress EROps p0 q0 y0 _ _ g log4 fuel size _ _ _ _ delta key log split unif choice depth ord (numbered 0 d1)
    R1 R2) as H'.
  finish0 H d1 d2. finish0 H' d1 d2. now split.
Qed.
Print Assumptions C74_real_thinning.
