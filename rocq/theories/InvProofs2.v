(** * Proofs for C74: solvers see the data through the Gramian only *)
From Coq Require Import List ZArith Bool Lia Arith Reals FunctionalExtensionality.
From Verif Require Import Num Jax JaxFacts RSum DataModel MeanModel MeanProofs GreedyModel CholModel MetricModel MapReduceModel KTModel GKPModel InvSpec InvProofs.
Import ListNotations.

(** ** Padding points do not matter for finite kernels in real arithmetic *)
Section Pad.
  Context {P Y : Type} (p0 : P) (y0 : Y) (k : P -> P -> R).
  Definition nw (w : list ER) : list R :=
    map (fun v => match v with Fin x => x | _ => 0%R end) (normalize_w EROps true w).
  Lemma nw_fin w : normalize_w EROps true w = map Fin (nw w).
  Proof.
    unfold nw, normalize_w. rewrite !map_map. apply map_ext. intros v.
    destruct (fdiv EROps v (fsum EROps w)); reflexivity.
  Qed.
  Lemma nw_length w : length (nw w) = length w.
  Proof. unfold nw, normalize_w. now rewrite !map_length. Qed.
  Lemma block_convert_any xs w sup bs : xs <> [] -> length xs = length w ->
    exists b pad, (0 < b)%nat /\
      block_convert EROps p0 y0 (mkData xs w sup) bs = Ok (map emb (rblocks p0 xs (nw w) b pad), length xs).
  Proof.
    intros Hne Hlen. unfold block_convert, d_len, normalize. cbn [d_x d_w d_y].
    set (n := length xs).
    assert (Hn : (0 < n)%nat) by (destruct xs; [congruence|unfold n; simpl; lia]).
    assert (Hb : (0 < eff_block n bs)%nat) by (unfold eff_block; destruct bs; lia).
    destruct (eff_block n bs) as [|b'] eqn:Eb; [lia|].
    exists (S b'), (cdiv n (S b') * S b' - n)%nat. split; [lia|].
    f_equal. f_equal. unfold zero_pad, rblocks. cbn [d_x d_w]. rewrite nw_fin.
    change (f0 EROps) with (@Fin R 0%R).
    rewrite <- (map_repeat_nat (@Fin R) 0%R), <- map_app, map_chunks, combine_emb. reflexivity.
  Qed.
  Definition mean_formula (x y : Data P Y ER) (ax : axis) : result (@meanval ER) :=
    let row ys w := fun a => Rdot (map (k a) ys) (nw w) in
    match d_x x, d_x y with
    | [], _ | _, [] => Err ZeroDivisionError
    | _, _ => match ax with
      | Axis1 => Ok (MVec (map (fun a => Fin (row (d_x y) (d_w y) a)) (d_x x)))
      | Axis0 => Ok (MVec (map (fun a => Fin (row (d_x x) (d_w x) a)) (d_x y)))
      | AxisNone => Ok (MScalar (Fin (Rdot (map (row (d_x y) (d_w y)) (d_x x)) (nw (d_w x)))))
      end
    end.
  Lemma mean_formula_ok x y ax bs : length (d_x x) = length (d_w x) -> length (d_x y) = length (d_w y) ->
    compute_mean EROps p0 y0 (finite_kernel k) x y ax bs = mean_formula x y ax.
  Proof.
    intros HLx HLy. destruct x as [xs wx sx], y as [ys wy sy]. cbn [d_x d_w] in *.
    destruct xs as [|x0 xs].
    { unfold compute_mean. destruct ax; try (rewrite (block_convert_empty p0 y0); reflexivity).
      destruct (block_convert EROps p0 y0 (mkData ys wy sy) _) as [[a b]|e] eqn:E; cbn [bind].
      - rewrite (block_convert_empty p0 y0). reflexivity.
      - unfold block_convert in E. destruct (eff_block _ _) in E; [|discriminate]. injection E as <-. reflexivity. }
    destruct ys as [|y1 ys].
    { unfold compute_mean. destruct ax; try (rewrite (block_convert_empty p0 y0); reflexivity);
      (destruct (block_convert EROps p0 y0 (mkData (x0 :: xs) wx sx) _) as [[a b]|e] eqn:E; cbn [bind];
       [rewrite (block_convert_empty p0 y0); reflexivity
       |unfold block_convert in E; destruct (eff_block _ _) in E; [|discriminate]; injection E as <-; reflexivity]). }
    unfold mean_formula. cbn [d_x d_w]. set (X := x0 :: xs) in *. set (Z := y1 :: ys) in *.
    assert (HX : X <> []) by discriminate. assert (HZ : Z <> []) by discriminate. clearbody X Z.
    unfold compute_mean. destruct (bs_two bs) as [bx [by_ E]]. rewrite E. cbn [nth].
    assert (NX : length X = length (nw wx)) by (now rewrite nw_length).
    assert (NZ : length Z = length (nw wy)) by (now rewrite nw_length).
    destruct ax.
    - destruct (block_convert_any Z wy sy by_ HZ HLy) as [b1 [p1 [Hb1 E1]]]. rewrite E1.
      destruct (block_convert_any X wx sx bx HX HLx) as [b2 [p2 [Hb2 E2]]]. cbn [bind]. rewrite E2. cbn [bind].
      pose proof (scan_core p0 k Z (nw wy) X (nw wx) b1 p1 b2 p2 Hb1 Hb2 NZ NX) as H.
      unfold finite_kernel. destruct (block_scan _ _ _ _) as [total cols]. destruct H as [_ H]. rewrite H.
      destruct X; [congruence|]. destruct Z; [congruence|]. reflexivity.
    - destruct (block_convert_any X wx sx bx HX HLx) as [b1 [p1 [Hb1 E1]]]. rewrite E1.
      destruct (block_convert_any Z wy sy by_ HZ HLy) as [b2 [p2 [Hb2 E2]]]. cbn [bind]. rewrite E2. cbn [bind].
      pose proof (scan_core p0 k X (nw wx) Z (nw wy) b1 p1 b2 p2 Hb1 Hb2 NX NZ) as H.
      unfold finite_kernel. destruct (block_scan _ _ _ _) as [total cols]. destruct H as [_ H]. rewrite H.
      destruct X; [congruence|]. destruct Z; [congruence|]. reflexivity.
    - destruct (block_convert_any X wx sx bx HX HLx) as [b1 [p1 [Hb1 E1]]]. rewrite E1.
      destruct (block_convert_any Z wy sy by_ HZ HLy) as [b2 [p2 [Hb2 E2]]]. cbn [bind]. rewrite E2. cbn [bind].
      pose proof (scan_core p0 k X (nw wx) Z (nw wy) b1 p1 b2 p2 Hb1 Hb2 NX NZ) as H.
      unfold finite_kernel. destruct (block_scan _ _ _ _) as [total cols]. destruct H as [H _]. rewrite H.
      destruct X; [congruence|]. destruct Z; [congruence|]. reflexivity.
  Qed.
End Pad.

Lemma mean_nat_finite {P Q Y} (phi : P -> Q) p0 q0 (y0 : Y) k : mean_nat EROps phi p0 q0 y0 (finite_kernel k).
Proof.
  intros x y ax bs [E|Hx] Hy; [apply (compute_mean_nat EROps phi p0 q0 y0 (finite_kernel k) E); now left|].
  destruct Hy as [E|Hy]; [apply (compute_mean_nat EROps phi p0 q0 y0 (finite_kernel k) E); now left|].
  change (pull phi (finite_kernel k)) with (finite_kernel (pull phi k)).
  rewrite !mean_formula_ok; auto; try (cbn; rewrite map_length; assumption).
  unfold mean_formula, map_data. cbn [d_x d_w].
  destruct x as [xs wx sx], y as [ys wy sy]; cbn [d_x d_w] in *.
  destruct xs as [|x0 xs]; [reflexivity|]. destruct ys as [|y1 ys]; [reflexivity|].
  set (X := x0 :: xs). set (Z := y1 :: ys).
  transitivity (match ax with
      | Axis1 => Ok (MVec (map (fun a => @Fin R (Rdot (map (k a) (map phi Z)) (nw wy))) (map phi X)))
      | Axis0 => Ok (MVec (map (fun a => @Fin R (Rdot (map (k a) (map phi X)) (nw wx))) (map phi Z)))
      | AxisNone => Ok (MScalar (@Fin R (Rdot (map (fun a => Rdot (map (k a) (map phi Z)) (nw wy)) (map phi X)) (nw wx))))
      end); [destruct ax; reflexivity|].
  destruct ax; f_equal; f_equal; rewrite ?map_map.
  - apply map_ext. intros a. now rewrite map_map.
  - apply map_ext. intros a. now rewrite map_map.
  - f_equal. f_equal. apply map_ext. intros a. now rewrite map_map.
Qed.

(** ** Rows as numbered points *)
Definition row_of {P} (p0 : P) (l : list P) (i : nat) : P := nth (Nat.min i (length l - 1)) l p0.
Lemma row_of_seq {P} (p0 : P) (l : list P) : map (row_of p0 l) (seq 0 (length l)) = l.
Proof.
  apply nth_ext with (d := row_of p0 l 0) (d' := p0); [now rewrite map_length, seq_length|].
  rewrite map_length, seq_length. intros i Hi. rewrite (map_nth (row_of p0 l)), seq_nth by assumption.
  unfold row_of. f_equal. lia.
Qed.
Lemma row_of_seq1 {P} (p0 : P) (l : list P) : map (row_of p0 (p0 :: l)) (seq 1 (length l)) = l.
Proof.
  apply nth_ext with (d := row_of p0 (p0 :: l) 0) (d' := p0); [now rewrite map_length, seq_length|].
  rewrite map_length, seq_length. intros i Hi. rewrite (map_nth (row_of p0 (p0 :: l))), seq_nth by assumption.
  unfold row_of. replace (Nat.min (1 + i) (length (p0 :: l) - 1)) with (S i) by (cbn [length]; lia). reflexivity.
Qed.
Lemma same_gramian_length {P Q V} (k1 : P -> P -> V) xs (k2 : Q -> Q -> V) ys :
  same_gramian k1 xs k2 ys -> length xs = length ys.
Proof. intros H. apply (f_equal (@length (list V))) in H. now rewrite !map_length in H. Qed.
Lemma map_nth_in {A B} (f : A -> B) l d d' i : (i < length l)%nat -> nth i (map f l) d' = f (nth i l d).
Proof. intros H. rewrite (nth_indep _ d' (f d)) by (now rewrite map_length). apply map_nth. Qed.
Lemma same_gramian_nth {P Q V} (p0 : P) (q0 : Q) (k1 : P -> P -> V) xs (k2 : Q -> Q -> V) ys i j :
  same_gramian k1 xs k2 ys -> (i < length xs)%nat -> (j < length xs)%nat ->
  k1 (nth i xs p0) (nth j xs p0) = k2 (nth i ys q0) (nth j ys q0).
Proof.
  intros H Hi Hj. pose proof (same_gramian_length _ _ _ _ H) as L.
  assert (E : nth j (nth i (map (fun a => map (fun b => k1 a b) xs) xs) []) (k1 p0 p0) =
              nth j (nth i (map (fun a => map (fun b => k2 a b) ys) ys) []) (k1 p0 p0)) by (now rewrite H).
  rewrite (map_nth_in _ xs p0), (map_nth_in _ ys q0) in E by lia.
  rewrite (map_nth_in _ xs p0), (map_nth_in _ ys q0) in E by lia. exact E.
Qed.
Lemma same_gramian_pull {P Q V} (p0 : P) (q0 : Q) (k1 : P -> P -> V) xs (k2 : Q -> Q -> V) ys :
  xs <> [] -> same_gramian k1 xs k2 ys -> pull (row_of p0 xs) k1 = pull (row_of q0 ys) k2.
Proof.
  intros HN H. pose proof (same_gramian_length _ _ _ _ H) as L.
  assert (0 < length xs)%nat by (destruct xs; [congruence|cbn; lia]).
  apply functional_extensionality. intros i. apply functional_extensionality. intros j.
  unfold pull, row_of. rewrite <- L. apply same_gramian_nth; auto; lia.
Qed.
(** the data set of row numbers *)
Definition numbered {P Y V} (from : nat) (d : Data P Y V) : Data nat Y V :=
  mkData (seq from (length (d_x d))) (d_w d) (d_y d).
Lemma numbered_same {P Q Y V} from (d1 : Data P Y V) (d2 : Data Q Y V) :
  length (d_x d1) = length (d_x d2) -> same_labels d1 d2 -> numbered from d1 = numbered from d2.
Proof. intros L [E1 E2]. unfold numbered. now rewrite L, E1, E2. Qed.
Lemma numbered_map0 {P Y V} (p0 : P) (d : Data P Y V) : map_data (row_of p0 (d_x d)) (numbered 0 d) = d.
Proof. unfold map_data, numbered. cbn. rewrite row_of_seq. now destruct d. Qed.
Lemma numbered_map1 {P Y V} (p0 : P) (d : Data P Y V) : map_data (row_of p0 (p0 :: d_x d)) (numbered 1 d) = d.
Proof. unfold map_data, numbered. cbn [d_x d_w d_y]. rewrite row_of_seq1. now destruct d. Qed.

Lemma sel_map {P Q Y V C} (phi : P -> Q) (r : result (Coresubset P Y V * C)) :
  rmap (on_fst selected) (rmap (on_fst (map_coreset phi)) r) = rmap (on_fst selected) r.
Proof. destruct r; reflexivity. Qed.
Lemma sel_map1 {P Q Y V} (phi : P -> Q) (r : result (Coresubset P Y V)) :
  rmap selected (rmap (map_coreset phi) r) = rmap selected r.
Proof. destruct r; reflexivity. Qed.

(** ** Two worlds seen from the row numbers *)
Section Two.
  Context {V : Type} (O : FOps V) {P Q Y K : Type} (p0 : P) (q0 : Q) (y0 : Y).
  Variables (phi : nat -> P) (psi : nat -> Q).
  Notation ok := (fun k1 k2 => mean_nat O phi 0%nat p0 y0 k1 /\ mean_nat O psi 0%nat q0 y0 k2 /\ pull phi k1 = pull psi k2).
  (** side conditions on a numbered data set *)
  Definition side (d : Data nat Y V) : Prop :=
    nz phi 0%nat p0 (d_x d) /\ nz psi 0%nat q0 (d_x d) /\ wfd phi 0%nat p0 d /\ wfd psi 0%nat q0 d.
  Definition sidec (c : Coresubset nat Y V) : Prop := side (c_pre c) /\ wfc phi 0%nat p0 c /\ wfc psi 0%nat q0 c.

  Lemma two_herding_refine m k1 k2 u bs mode ord c st : ok k1 k2 -> sidec c ->
    rmap (on_fst selected) (herding_refine O p0 y0 (mkHerding m k1 u bs mode) ord (map_coreset phi c) st) =
    rmap (on_fst selected) (herding_refine O q0 y0 (mkHerding m k2 u bs mode) ord (map_coreset psi c) st).
  Proof.
    intros (M1 & M2 & E) ((N1 & N2 & W1 & W2) & C1 & C2).
    rewrite (herding_refine_nat O phi 0%nat p0 y0), (herding_refine_nat O psi 0%nat q0 y0) by assumption.
    rewrite !sel_map. unfold pull_herding. cbn. now rewrite E.
  Qed.
  Lemma two_herding_reduce m k1 k2 u bs mode ord d st : ok k1 k2 -> side d ->
    rmap (on_fst selected) (herding_reduce O p0 y0 (mkHerding m k1 u bs mode) ord (map_data phi d) st) =
    rmap (on_fst selected) (herding_reduce O q0 y0 (mkHerding m k2 u bs mode) ord (map_data psi d) st).
  Proof.
    intros (M1 & M2 & E) (N1 & N2 & W1 & W2).
    rewrite (herding_reduce_nat O phi 0%nat p0 y0), (herding_reduce_nat O psi 0%nat q0 y0) by assumption.
    rewrite !sel_map. unfold pull_herding. cbn. now rewrite E.
  Qed.
  Lemma two_herding_iterative m k1 k2 u bs mode modes ords d st iters : ok k1 k2 -> side d ->
    rmap (on_fst selected) (herding_reduce_iterative O p0 y0 (mkHerding m k1 u bs mode) modes ords (map_data phi d) st iters) =
    rmap (on_fst selected) (herding_reduce_iterative O q0 y0 (mkHerding m k2 u bs mode) modes ords (map_data psi d) st iters).
  Proof.
    intros (M1 & M2 & E) (N1 & N2 & W1 & W2).
    rewrite (herding_iterative_nat O phi 0%nat p0 y0), (herding_iterative_nat O psi 0%nat q0 y0) by assumption.
    rewrite !sel_map. unfold pull_herding. cbn. now rewrite E.
  Qed.
  (** the regularisation terms enter through their values at the data *)
  Definition const_reg {A} (r : option (option V * (list A -> list V -> list V) * (list A -> list V))) (x : list A) (w : list V)
    : option (option V * list V * list V) :=
    match r with None => None | Some (lam, lp, la) => Some (lam, lp x w, la x) end.
  Definition reg_of {A} (r : option (option V * list V * list V))
    : option (option V * (list A -> list V -> list V) * (list A -> list V)) :=
    match r with None => None | Some (lam, lp, la) => Some (lam, (fun _ _ => lp), (fun _ => la)) end.
  Lemma stein_const {A} (a0 : A) m k u bs r ord (c : Coresubset A Y V) :
    stein_refine O a0 y0 (mkStein m k u bs r) ord c =
    stein_refine O a0 y0 (mkStein m k u bs (reg_of (const_reg r (d_x (c_pre c)) (d_w (c_pre c))))) ord c.
  Proof.
    unfold stein_refine. destruct (unpack2 (c_pre c)) as [[x w]|] eqn:E; [|reflexivity]. cbn [bind s_kernel s_size s_unique s_bs].
    assert (x = d_x (c_pre c) /\ w = d_w (c_pre c)) as [-> ->].
    { unfold unpack2 in E. destruct (d_y (c_pre c)); [discriminate|]. injection E as <- <-. auto. }
    f_equal. f_equal. unfold stein_terms. cbn [s_reg]. destruct r as [[[lam lp] la]|]; reflexivity.
  Qed.
  Lemma two_stein_refine m k1 k2 u bs r1 r2 ord c : ok k1 k2 -> sidec c ->
    const_reg r1 (map phi (d_x (c_pre c))) (d_w (c_pre c)) = const_reg r2 (map psi (d_x (c_pre c))) (d_w (c_pre c)) ->
    rmap selected (stein_refine O p0 y0 (mkStein m k1 u bs r1) ord (map_coreset phi c)) =
    rmap selected (stein_refine O q0 y0 (mkStein m k2 u bs r2) ord (map_coreset psi c)).
  Proof.
    intros (M1 & M2 & E) ((N1 & N2 & W1 & W2) & C1 & C2) ER.
    rewrite (stein_const p0), (stein_const q0). cbn [c_pre map_coreset d_x d_w map_data]. rewrite ER.
    rewrite (stein_refine_nat O phi 0%nat p0 y0), (stein_refine_nat O psi 0%nat q0 y0) by assumption.
    rewrite !sel_map1. unfold pull_stein. cbn [s_kernel s_size s_unique s_bs s_reg]. rewrite E.
    destruct (const_reg r2 _ _) as [[[lam lp] la]|]; reflexivity.
  Qed.
  Lemma two_stein_reduce m k1 k2 u bs r1 r2 ord d : ok k1 k2 -> side d ->
    const_reg r1 (map phi (d_x d)) (d_w d) = const_reg r2 (map psi (d_x d)) (d_w d) ->
    rmap selected (stein_reduce O p0 y0 (mkStein m k1 u bs r1) ord (map_data phi d)) =
    rmap selected (stein_reduce O q0 y0 (mkStein m k2 u bs r2) ord (map_data psi d)).
  Proof.
    intros HO HS ER. unfold stein_reduce. cbn [s_size].
    rewrite (initial_nat O phi 0%nat p0 y0), (initial_nat O psi 0%nat q0 y0), !bind_rmap, !rmap_bind.
    apply bind_ext. intros c Ec. apply cs_init_pre in Ec. subst c.
    apply two_stein_refine; auto. split; [exact HS|]. split; apply wfc_initial.
  Qed.
  Lemma two_chol m k1 k2 u pick d st : pull phi k1 = pull psi k2 ->
    (p0 = phi 0%nat /\ q0 = psi 0%nat) \/ (forall i p, (pick i p < d_len d)%nat) ->
    rmap (on_fst selected) (chol_reduce O p0 y0 (mkChol m k1 u pick) (map_data phi d) st) =
    rmap (on_fst selected) (chol_reduce O q0 y0 (mkChol m k2 u pick) (map_data psi d) st).
  Proof.
    intros E H. rewrite (chol_nat O phi 0%nat p0 y0), (chol_nat O psi 0%nat q0 y0) by (cbn [ch_pick]; tauto).
    rewrite !sel_map. unfold pull_chol. cbn. now rewrite E.
  Qed.
  Lemma two_kt m k1 k2 s1 s2 delta (key : K) log split unif choice depth ord d : ok k1 k2 -> pull phi s1 = pull psi s2 -> side d ->
    rmap selected (kt_reduce O p0 y0 (mkKT m k1 s1 delta key log split unif choice depth ord) (map_data phi d)) =
    rmap selected (kt_reduce O q0 y0 (mkKT m k2 s2 delta key log split unif choice depth ord) (map_data psi d)).
  Proof.
    intros (M1 & M2 & E) E2 (N1 & N2 & W1 & W2).
    rewrite (kt_reduce_nat O phi 0%nat p0 y0), (kt_reduce_nat O psi 0%nat q0 y0) by assumption.
    rewrite !sel_map1. unfold pull_kt. cbn. now rewrite E, E2.
  Qed.
  Lemma two_compress g log4 fuel m k1 k2 s1 s2 delta (key : K) log split unif choice depth ord d : ok k1 k2 -> pull phi s1 = pull psi s2 ->
    rmap selected (compress_reduce O p0 y0 (mkCP g (mkKT m k1 s1 delta key log split unif choice depth ord) log4) fuel (map_data phi d)) =
    rmap selected (compress_reduce O q0 y0 (mkCP g (mkKT m k2 s2 delta key log split unif choice depth ord) log4) fuel (map_data psi d)).
  Proof.
    intros (M1 & M2 & E) E2.
    rewrite (compress_nat O phi 0%nat p0 y0), (compress_nat O psi 0%nat q0 y0) by assumption.
    rewrite !sel_map1. unfold pull_compress, pull_kt. cbn. now rewrite E, E2.
  Qed.
  Lemma two_mmd k1 k2 x y bs : ok k1 k2 -> side x -> side y ->
    mmd_compute O p0 y0 k1 (map_data phi x) (map_data phi y) bs = mmd_compute O q0 y0 k2 (map_data psi x) (map_data psi y) bs.
  Proof.
    intros (M1 & M2 & E) (N1 & N2 & W1 & W2) (N3 & N4 & W3 & W4).
    rewrite (mmd_nat O phi 0%nat p0 y0), (mmd_nat O psi 0%nat q0 y0) by assumption. now rewrite E.
  Qed.
  Lemma two_mmdw osqp k1 k2 x y eps bs : ok k1 k2 ->
    mmdw_solve O p0 y0 osqp k1 (map_data phi x) (map_data phi y) eps bs = mmdw_solve O q0 y0 osqp k2 (map_data psi x) (map_data psi y) eps bs.
  Proof.
    intros (M1 & M2 & E).
    rewrite (mmdw_nat O phi 0%nat p0 y0), (mmdw_nat O psi 0%nat q0 y0) by assumption. now rewrite E.
  Qed.
  Lemma two_sbq ls k1 k2 x y eps bs : ok k1 k2 ->
    sbq_solve O p0 y0 ls k1 (map_data phi x) (map_data phi y) eps bs = sbq_solve O q0 y0 ls k2 (map_data psi x) (map_data psi y) eps bs.
  Proof.
    intros (M1 & M2 & E).
    rewrite (sbq_nat O phi 0%nat p0 y0), (sbq_nat O psi 0%nat q0 y0) by assumption. now rewrite E.
  Qed.
End Two.
