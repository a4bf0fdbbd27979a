(** * Selecting points with a rescaled kernel *)
From Coq Require Import List ZArith Reals Lra Lia Bool FunctionalExtensionality.
From Verif Require Import Num Jax JaxFacts RSum DataModel MeanModel GreedyModel MetricModel CholModel MapReduceModel GKPModel KTModel
  KernelProofs KTProofs5 DataMeanLemmas ThinProofs.
Import ListNotations.
Open Scope R_scope.

Lemma sc_sc a b v : sc a (sc b v) = sc (a * b) v. Proof. destruct v; cbn; auto. f_equal. ring. Qed.
Lemma sc_l c a b : 0 < c -> fmul EROps (sc c a) b = sc c (fmul EROps a b).
Proof. intro H. rewrite <- (sc_1 b) at 1. rewrite sc_times by lra. now rewrite Rmult_1_r. Qed.
Lemma sc_r c a b : 0 < c -> fmul EROps a (sc c b) = sc c (fmul EROps a b).
Proof. intro H. rewrite <- (sc_1 a) at 1. rewrite sc_times by lra. now rewrite Rmult_1_l. Qed.
Lemma sc_divl c a b : 0 < c -> fdiv EROps (sc c a) b = sc c (fdiv EROps a b).
Proof. intro H. rewrite <- (sc_1 b) at 1. rewrite sc_div by lra. unfold Rdiv. now rewrite Rinv_1, Rmult_1_r. Qed.
Lemma sc_dot_r c l m : 0 < c -> fdot EROps l (map (sc c) m) = sc c (fdot EROps l m).
Proof.
  intro H. unfold fdot. rewrite <- sc_sum. f_equal. revert m.
  induction l as [|a l IH]; intros [|b m]; auto. cbn [map map2]. f_equal; auto. now apply sc_r.
Qed.
Lemma sc_gt0 c v : 0 < c -> fgt0 EROps (sc c v) = fgt0 EROps v.
Proof. intro H. unfold fgt0. rewrite <- (sc_zero c) at 1. now apply sc_ltb. Qed.
Lemma sc_leb c a b : 0 < c -> fleb EROps (sc c a) (sc c b) = fleb EROps a b.
Proof. intro H. unfold fleb. now rewrite !sc_nan, sc_ltb. Qed.
Lemma argbest_map (f : ER -> ER) better l : (forall a b, better (f a) (f b) = better a b) ->
  forall i bi x, argbest better (map f l) i bi (f x) = argbest better l i bi x.
Proof.
  intro H. induction l as [|y l IH]; intros i bi x; [reflexivity|]. cbn [map argbest]. rewrite H. destruct (better y x); apply IH.
Qed.
Lemma argb_map (f : ER -> ER) better l : (forall a b, better (f a) (f b) = better a b) -> argb better (map f l) = argb better l.
Proof. intro H. destruct l as [|x l]; [reflexivity|]. cbn [map argb]. now apply argbest_map. Qed.
Lemma sc_argmax c l : 0 < c -> argmax EROps (map (sc c) l) = argmax EROps l.
Proof. intro H. apply argb_map. intros a b. unfold gt_nan. now rewrite !sc_nan, sc_ltb. Qed.
Lemma sc_argmin c l : 0 < c -> argmin EROps (map (sc c) l) = argmin EROps l.
Proof. intro H. apply argb_map. intros a b. unfold lt_nan. now rewrite !sc_nan, sc_ltb. Qed.
Lemma forallb_map {A B} (f : A -> B) p l : forallb p (map f l) = forallb (fun a => p (f a)) l.
Proof. induction l; cbn; congruence. Qed.
Lemma sc_allnan c l : forallb (fisnan EROps) (map (sc c) l) = forallb (fisnan EROps) l.
Proof. induction l as [|a l IH]; [reflexivity|]. cbn [map forallb]. now rewrite sc_nan, IH. Qed.
Lemma sc_nanargmax c l : 0 < c -> nanargmax EROps (map (sc c) l) = nanargmax EROps l.
Proof.
  intro H. unfold nanargmax. rewrite sc_allnan.
  destruct (forallb _ l); [reflexivity|]. f_equal. etransitivity; [|exact (sc_argmax c _ H)]. f_equal. rewrite !map_map.
  apply map_ext. intro v. destruct v; reflexivity.
Qed.
Lemma sc_nanargmin c l : 0 < c -> nanargmin EROps (map (sc c) l) = nanargmin EROps l.
Proof.
  intro H. unfold nanargmin. rewrite sc_allnan.
  destruct (forallb _ l); [reflexivity|]. f_equal. etransitivity; [|exact (sc_argmin c _ H)]. f_equal. rewrite !map_map.
  apply map_ext. intro v. destruct v; reflexivity.
Qed.

(** ** Means *)
Definition scale_mean (c : R) (m : meanval) : meanval := match m with MScalar v => MScalar (sc c v) | MVec l => MVec (map (sc c) l) end.
Lemma fold_sim {A B} (h : A -> A) (f f' : A -> B -> A) : (forall a x, f' (h a) x = h (f a x)) ->
  forall l a, fold_left f' l (h a) = h (fold_left f l a).
Proof. intros H l. induction l as [|x l IH]; intro a; [reflexivity|]. cbn [fold_left]. rewrite H. apply IH. Qed.
Section Mean.
  Context {P Y : Type} (p0 : P) (y0 : Y) (c : R) (Hc : 0 < c) (k : P -> P -> ER).
  Let kc a b := fmul EROps (Fin c) (k a b).
  Let h (s : ER * list (list ER)) := (sc c (fst s), map (map (sc c)) (snd s)).
  Lemma slices_scale xb ybs acc : slice_sums EROps kc xb ybs (sc c acc) = h (slice_sums EROps k xb ybs acc).
  Proof.
    unfold slice_sums. change (sc c acc, @nil (list ER)) with (h (acc, [])). apply fold_sim. intros [a sl] yb. unfold h. cbn [fst snd].
    assert (E : map (fun row => fdot EROps row (snd yb)) (pairwise kc (fst xb) (fst yb))
      = map (sc c) (map (fun row => fdot EROps row (snd yb)) (pairwise k (fst xb) (fst yb)))).
    { unfold pairwise. rewrite !map_map. apply map_ext. intro p. rewrite <- sc_dot by exact Hc. f_equal. rewrite map_map.
      apply map_ext. intro b. apply sc_mul, Hc. }
    rewrite E, sc_dot_r, sc_add, map_app by exact Hc. reflexivity.
  Qed.
  Lemma axis0_scale n m : sum_axis0 EROps n (map (map (sc c)) m) = map (sc c) (sum_axis0 EROps n m).
  Proof.
    unfold sum_axis0. rewrite map_map. apply map_ext. intros j. rewrite <- sc_sum, !map_map. f_equal. apply map_ext. intros row.
    rewrite <- (sc_zero c) at 1. apply map_nth.
  Qed.
  Lemma scan_scale xbs ybs : block_scan EROps kc xbs ybs = h (block_scan EROps k xbs ybs).
  Proof.
    unfold block_scan. transitivity (fold_left (fun (s : ER * list (list ER)) xb =>
      let '(acc, cols) := s in
      let '(acc', slices) := slice_sums EROps kc xb ybs acc in
      (acc', cols ++ [sum_axis0 EROps (length (fst xb)) slices])) xbs (h (f0 EROps, []))).
    - f_equal. unfold h. cbn [fst snd map]. now rewrite sc_zero.
    - apply fold_sim. intros [acc cols] xb. unfold h at 1. cbn [fst snd]. rewrite slices_scale.
      destruct (slice_sums EROps k xb ybs acc) as [a' sl]. unfold h. cbn [fst snd]. now rewrite axis0_scale, map_app.
  Qed.
  Lemma mean_scale x y ax bs : compute_mean EROps p0 y0 kc x y ax bs
    = do m <- compute_mean EROps p0 y0 k x y ax bs; Ok (scale_mean c m).
  Proof.
    assert (F : forall (xb yb : list (list P * list ER)) n,
      (let '(total, cols) := block_scan EROps kc xb yb in match ax with AxisNone => Ok (MScalar total) | _ => Ok (MVec (firstn n (concat cols))) end)
      = do m <- (let '(total, cols) := block_scan EROps k xb yb in match ax with AxisNone => Ok (MScalar total) | _ => Ok (MVec (firstn n (concat cols))) end);
        Ok (scale_mean c m)).
    { intros. rewrite scan_scale. destruct (block_scan EROps k xb yb) as [t cols]. unfold h. cbn [fst snd].
      destruct ax; cbn [bind scale_mean]; auto; now rewrite <- concat_map, firstn_map. }
    unfold compute_mean. cbv zeta. destruct ax.
    all: repeat match goal with |- context [block_convert EROps p0 y0 ?d ?b] => destruct (block_convert EROps p0 y0 d b) as [[? ?]|]; cbn [bind]; [|reflexivity] end.
    all: match goal with n : nat |- _ => exact (F _ _ n) end.
  Qed.
End Mean.

(** ** Array operations commute with scaling *)
Section Arrays.
  Context (c : R) (Hc : 0 < c).
  Lemma upd_map {A B} (f : A -> B) i v l : upd i (f v) (map f l) = map f (upd i v l).
  Proof. revert i. induction l as [|a l IH]; intros [|i]; cbn; congruence. Qed.
  Lemma jset_map {A B} (f : A -> B) l i v : jset (map f l) i (f v) = map f (jset l i v).
  Proof. unfold jset. rewrite map_length. destruct (_ && _)%bool; [apply upd_map|reflexivity]. Qed.
  Lemma jget_map {A B} (f : A -> B) d l i : jget (f d) (map f l) i = f (jget d l i).
  Proof. unfold jget. rewrite map_length. apply map_nth. Qed.
  Lemma scatter_map {A B} (f : A -> B) ord d l idx vals :
    scatter ord (f d) (map f l) idx (map f vals) = map f (scatter ord d l idx vals).
  Proof.
    unfold scatter. revert l. induction ord as [|p ord IH]; intro l; [reflexivity|]. cbn [fold_left]. rewrite map_nth, jset_map. apply IH.
  Qed.
  Lemma map2_map (g g' : ER -> ER -> ER) l m : (forall a b, g' (sc c a) (sc c b) = sc c (g a b)) ->
    map2 g' (map (sc c) l) (map (sc c) m) = map (sc c) (map2 g l m).
  Proof. intro H. revert m. induction l as [|a l IH]; intros [|b m]; auto. cbn [map map2]. now rewrite H, IH. Qed.
  Lemma map2_map_r {A} (g : A -> ER -> ER) l m : (forall a b, g a (sc c b) = sc c (g a b)) ->
    map2 g l (map (sc c) m) = map (sc c) (map2 g l m).
  Proof. intro H. revert m. induction l as [|a l IH]; intros [|b m]; auto. cbn [map map2]. now rewrite H, IH. Qed.
  Lemma map2_out {A B} (g g' : A -> B -> ER) l m : (forall a b, g' a b = sc c (g a b)) -> map2 g' l m = map (sc c) (map2 g l m).
  Proof. intro H. revert m. induction l as [|a l IH]; intros [|b m]; auto. cbn [map map2]. now rewrite H, IH. Qed.
End Arrays.

(** ** Greedy selection *)
Section Greedy.
  Context {P Y : Type} (p0 : P) (y0 : Y) (c : R) (Hc : 0 < c) (k : P -> P -> ER).
  Let kc a b := fmul EROps (Fin c) (k a b).
  Let hs (s : gstate) := mkG (g_idx s) (map (sc c) (g_pen s)) (g_size s).
  Lemma kcol_scale x r : kcol kc x r = map (sc c) (kcol k x r).
  Proof. unfold kcol. rewrite map_map. apply map_ext. intro a. now apply sc_mul. Qed.
  Lemma valid_scale u ord dw cw idx i pen :
    valid_penalty EROps u ord dw cw idx i (map (sc c) pen) = map (sc c) (valid_penalty EROps u ord dw cw idx i pen).
  Proof.
    unfold valid_penalty. cbv zeta.
    assert (E : map2 (fun w p => if fgt0 EROps w then p else fnan EROps) dw (map (sc c) pen)
      = map (sc c) (map2 (fun w p => if fgt0 EROps w then p else fnan EROps) dw pen)).
    { apply map2_map_r. intros a b. destruct (fgt0 EROps a); reflexivity. }
    rewrite E. destruct u; [|reflexivity].
    etransitivity; [|apply (scatter_map (sc c))]. rewrite sc_zero. f_equal.
    apply map2_out. intros j w. destruct (_ && _)%bool; [reflexivity|].
    rewrite <- (sc_zero c) at 1. apply jget_map.
  Qed.
  Lemma body_scale x dw cw sel sel' u ord i s : (forall i p z, sel' i (map (sc c) p) z = sel i p z) ->
    greedy_body EROps p0 kc x dw cw sel' u ord i (hs s) = hs (greedy_body EROps p0 k x dw cw sel u ord i s).
  Proof.
    intro H. unfold greedy_body, hs. cbn [g_idx g_pen g_size]. rewrite !kcol_scale.
    set (pen := if fgt0 EROps (nth i cw (f0 EROps)) then map2 (fsub EROps) (g_pen s) (kcol k x (jget p0 x (nth i (g_idx s) 0%Z))) else g_pen s).
    assert (E : (if fgt0 EROps (nth i cw (f0 EROps)) then map2 (fsub EROps) (map (sc c) (g_pen s)) (map (sc c) (kcol k x (jget p0 x (nth i (g_idx s) 0%Z))))
      else map (sc c) (g_pen s)) = map (sc c) pen).
    { unfold pen. destruct (fgt0 _ _); [|reflexivity]. apply map2_map. intros. apply sc_sub. }
    rewrite E, valid_scale, H. set (j := sel i _ _). f_equal.
    rewrite (map2_map c (fadd EROps)) by (intros; apply sc_add).
    destruct u; [|reflexivity]. apply (jset_map (sc c) _ j (finf EROps)).
  Qed.
  Lemma selection_scale cs sel sel' n u bs ord : (forall i p z, sel' i (map (sc c) p) z = sel i p z) ->
    greedy_selection EROps p0 y0 cs sel' n kc u bs ord = greedy_selection EROps p0 y0 (Y := Y) cs sel n k u bs ord.
  Proof.
    intro H. unfold greedy_selection. cbv zeta. destruct (unpack2 (c_pre cs)) as [[x dw]|]; [|reflexivity]. cbn [bind].
    rewrite (mean_scale p0 y0 c Hc k). destruct (compute_mean _ _ _ k _ _ _ _) as [[v|m]|]; cbn [bind scale_mean]; [reflexivity| |reflexivity].
    set (cw := c_w cs ++ _). set (idx := c_idx cs ++ _). set (z := Z.of_nat (count_pos EROps cw)).
    assert (E : mkG idx (map (fun v => fmul EROps (fofZ EROps z) v) (map (sc c) m)) z
      = hs (mkG idx (map (fun v => fmul EROps (fofZ EROps z) v) m) z)).
    { unfold hs. cbn [g_idx g_pen g_size]. f_equal. rewrite !map_map. apply map_ext. intro a. now apply sc_r. }
    rewrite E. unfold fori.
    rewrite (fold_sim hs (fun s i => greedy_body EROps p0 k x dw cw sel u ord i s)) by (intros; now apply body_scale).
    reflexivity.
  Qed.
  (** the temperature of the probabilistic mode has the unit of the kernel *)
  Definition scale_mode (m : hmode (V := ER)) : hmode :=
    match m with Greedy => Greedy | Prob ex t ch => Prob ex (fmul EROps (Fin c) t) ch end.
  Lemma select_scale m g i p z : herding_select EROps (scale_mode m) (map (sc c) g) i (map (sc c) p) z = herding_select EROps m g i p z.
  Proof.
    unfold herding_select. cbv zeta.
    rewrite (map2_map c (fun g p => fsub EROps g (fdiv EROps p (fofZ EROps z)))) by (intros; rewrite sc_divl by exact Hc; apply sc_sub).
    destruct m as [|ex t ch]; cbn [scale_mode]; [now apply sc_nanargmax|].
    rewrite map_map. do 2 f_equal. apply map_ext. intro a. rewrite sc_mul, sc_div by exact Hc. unfold Rdiv. rewrite Rinv_r by lra. apply sc_1.
  Qed.
End Greedy.

(** ** Pivoted Cholesky: residuals scale by c, the factor by sqrt c *)
Section Chol.
  Context {P Y : Type} (p0 : P) (y0 : Y) (c : R) (Hc : 0 < c) (k : P -> P -> ER) (size : nat) (u : bool) (pick : nat -> list ER -> nat)
    (Hpick : forall i p, pick i (map (sc c) p) = pick i p).
  Let kc a b := fmul EROps (Fin c) (k a b).
  Let s := mkChol size k u pick.
  Let s' := mkChol size kc u pick.
  Let hc (st : cstate) := mkC (map (sc c) (c_diag st)) (map (map (sc (sqrt c))) (c_mat st)) (c_ind st).
  Let q := sqrt_lt_R0 c Hc.
  Let qq : sqrt c * sqrt c = c. Proof. apply sqrt_sqrt. lra. Qed.
  Lemma dot_scale a b : fdot EROps (map (sc (sqrt c)) a) (map (sc (sqrt c)) b) = sc c (fdot EROps a b).
  Proof. rewrite sc_dot, sc_dot_r, sc_sc, qq by exact q. reflexivity. Qed.
  Lemma column_scale x mat p : chol_column EROps p0 kc x (map (map (sc (sqrt c))) mat) p = map (sc c) (chol_column EROps p0 k x mat p).
  Proof.
    unfold chol_column. cbv zeta. change (nth p (map (map (sc (sqrt c))) mat) []) with (nth p (map (map (sc (sqrt c))) mat) (map (sc (sqrt c)) [])).
    rewrite map_nth. generalize (nth p mat []) as row, (nth p x p0) as pt. intros row pt. revert x.
    induction mat as [|r mat IH]; intros [|a x]; auto. cbn [map map2]. rewrite IH, dot_scale. f_equal.
    unfold kc. rewrite sc_mul by exact Hc. apply sc_sub.
  Qed.
  Lemma eq0_scale v : feqb EROps (sc c v) (f0 EROps) = feqb EROps v (f0 EROps).
  Proof. unfold feqb. rewrite <- (sc_zero c) at 1 2. now rewrite !sc_leb. Qed.
  Lemma pick_scale i diag mask : pick i (valid_residuals EROps (map (sc c) diag) mask) = pick i (valid_residuals EROps diag mask).
  Proof.
    unfold valid_residuals.
    assert (A : forallb (fun v => feqb EROps v (f0 EROps)) (map (sc c) diag) = forallb (fun v => feqb EROps v (f0 EROps)) diag).
    { induction diag as [|a l IH]; [reflexivity|]. cbn [map forallb]. now rewrite eq0_scale, IH. }
    assert (B : existsb (fisnan EROps) (map (sc c) diag) = existsb (fisnan EROps) diag).
    { clear A. induction diag as [|a l IH]; [reflexivity|]. cbn [map existsb]. now rewrite sc_nan, IH. }
    rewrite A, B. destruct (_ || _)%bool; [reflexivity|apply Hpick].
  Qed.
  Lemma chol_body_scale x i st : chol_body EROps p0 s' x i (hc st) = hc (chol_body EROps p0 s x i st).
  Proof.
    unfold chol_body, hc. cbn [c_diag c_mat c_ind]. unfold s, s'. cbn [ch_pick ch_kernel ch_unique]. cbv zeta.
    rewrite pick_scale. set (p := pick i _). rewrite column_scale. set (g := chol_column _ _ _ _ _ _).
    assert (E : map (fun v => fdiv EROps v (fsqrt EROps (nth p (map (sc c) g) (f0 EROps)))) (map (sc c) g)
      = map (sc (sqrt c)) (map (fun v => fdiv EROps v (fsqrt EROps (nth p g (f0 EROps)))) g)).
    { assert (N : nth p (map (sc c) g) (f0 EROps) = sc c (nth p g (f0 EROps))) by (etransitivity; [|apply map_nth]; now rewrite sc_zero).
      rewrite N, !map_map, sc_sqrt by exact Hc. apply map_ext. intro a. rewrite sc_div by assumption.
      f_equal. rewrite <- qq at 1. field. lra. }
    rewrite E. set (col := map _ g). f_equal.
    - assert (D : map2 (fun r c0 => fmax EROps (fsub EROps r (fmul EROps c0 c0)) (f0 EROps)) (map (sc c) (c_diag st)) (map (sc (sqrt c)) col)
        = map (sc c) (map2 (fun r c0 => fmax EROps (fsub EROps r (fmul EROps c0 c0)) (f0 EROps)) (c_diag st) col)).
      { generalize (c_diag st). induction col as [|a l IH]; intros [|b m]; auto. cbn [map map2]. rewrite IH. f_equal.
        rewrite sc_times, qq, sc_sub by exact q. rewrite <- (sc_zero c) at 1. now apply sc_max. }
      rewrite D. destruct u; [|reflexivity]. rewrite <- (sc_zero c) at 1. apply upd_map.
    - generalize (c_mat st). clear E. induction col as [|a l IH]; intros [|b m]; auto. cbn [map map2]. rewrite IH. f_equal. apply upd_map.
  Qed.
  Lemma chol_scale d st :
    chol_reduce EROps p0 y0 s' d (option_map (map (sc c)) st)
    = do (cs, g) <- chol_reduce EROps p0 (Y := Y) y0 s d st; Ok (cs, map (sc c) g).
  Proof.
    unfold chol_reduce. cbv zeta. change (ch_size s') with size. change (ch_size s) with size.
    destruct (initial_coresubset _ _ _ _ _ _) as [cs|]; [|reflexivity]. cbn [bind].
    match goal with |- context [mkC ?a ?m _] => set (m0 := m) end.
    set (dg := match st with None => map (fun a => ch_kernel s a a) (d_x d) | Some g => g end).
    assert (E : mkC (match option_map (map (sc c)) st with None => map (fun a => ch_kernel s' a a) (d_x d) | Some g => g end) m0 (c_idx cs)
      = hc (mkC dg m0 (c_idx cs))).
    { unfold hc, dg. cbn [c_diag c_mat c_ind]. f_equal.
      - destruct st; [reflexivity|]. cbn [option_map]. rewrite map_map. apply map_ext. intro a. unfold s', s. cbn. now apply sc_mul.
      - unfold m0. rewrite !map_repeat. now rewrite sc_zero. }
    rewrite E. unfold fori. rewrite (fold_sim hc (fun st i => chol_body EROps p0 s (d_x d) i st)) by (intros; apply chol_body_scale).
    set (out := fold_left _ _ _). unfold hc. cbn [c_ind c_diag]. destruct (cs_build _ _ _ _ _); reflexivity.
  Qed.
End Chol.

(** ** Greedy kernel points: the coefficients scale by 1/c, the predictions not at all *)
Section GKP.
  Context {P K : Type} (p0 : P) (c : R) (Hc : 0 < c) (s : gkp (V := ER) (P := P) (K := K)).
  Hypothesis Hsolve : forall A r b I, gk_solve s (map (map (sc c)) A) (sc c r) b I = map (sc (/ c)) (gk_solve s A r b I).
  Let kc a b := fmul EROps (Fin c) (gk_kernel s a b).
  Let s' := mkGKP (gk_size s) kc (fmul EROps (Fin c) (gk_reg s)) (gk_unique s) (gk_candidates s) (gk_loss s) (gk_solve s)
    (gk_split s) (gk_permutation s) (gk_key s).
  Lemma gram_at_scale g i j : gram_at EROps (map (map (sc c)) g) i j = sc c (gram_at EROps g i j).
  Proof.
    unfold gram_at. change (jget [] (map (map (sc c)) g) i) with (jget (map (sc c) []) (map (map (sc c)) g) i).
    rewrite jget_map. rewrite <- (sc_zero c) at 1. apply jget_map.
  Qed.
  Lemma abs_scale v : fabs EROps (sc c v) = sc c (fabs EROps v).
  Proof.
    unfold fabs. rewrite <- (sc_zero c) at 1. rewrite sc_ltb by exact Hc. destruct (fltb EROps (f0 EROps) v); [reflexivity|].
    unfold fneg. rewrite <- (sc_zero c) at 1. apply sc_sub.
  Qed.
  Lemma loss_scale resp gram id lb cand :
    gkp_loss EROps (gk_solve s) (fmul EROps (Fin c) (gk_reg s)) resp (map (map (sc c)) gram) id lb cand
    = gkp_loss EROps (gk_solve s) (gk_reg s) resp gram id lb cand.
  Proof.
    unfold gkp_loss. cbv zeta. rewrite sc_mul, abs_scale by exact Hc.
    assert (E : map (fun i => map (gram_at EROps (map (map (sc c)) gram) i) cand) cand
      = map (map (sc c)) (map (fun i => map (gram_at EROps gram i) cand) cand)).
    { rewrite map_map. apply map_ext. intro i. rewrite map_map. apply map_ext. intro j. apply gram_at_scale. }
    rewrite E, Hsolve. set (co := gk_solve s _ _ _ _).
    assert (Pr : forall l, fdot EROps (map (fun i => gram_at EROps (map (map (sc c)) gram) i l) cand) (map (sc (/ c)) co)
      = fdot EROps (map (fun i => gram_at EROps gram i l) cand) co).
    { intro l. rewrite (map_ext _ (fun i => sc c (gram_at EROps gram i l))) by (intro; apply gram_at_scale).
      rewrite <- (map_map (fun i => gram_at EROps gram i l) (sc c)).
      assert (0 < / c) by now apply Rinv_0_lt_compat.
      rewrite sc_dot, sc_dot_r, sc_sc, Rinv_r by (assumption || lra). apply sc_1. }
    f_equal. apply map_ext. intro l. now rewrite !Pr.
  Qed.
  Lemma gram_scale x : padded_gramian EROps kc x = map (map (sc c)) (padded_gramian EROps (gk_kernel s) x).
  Proof.
    unfold padded_gramian. rewrite map_app, map_map. cbn [map]. rewrite map_repeat, sc_zero. f_equal.
    apply map_ext. intro a. rewrite map_app, map_map. cbn [map]. rewrite sc_zero. f_equal. apply map_ext. intro b. now apply sc_mul.
  Qed.
  Lemma gkp_scale_refine cs st :
    gkp_refine EROps p0 s' cs (option_map (map (map (sc c))) st)
    = do (r, g) <- gkp_refine EROps p0 s cs st; Ok (r, map (map (sc c)) g).
  Proof.
    unfold gkp_refine. cbv zeta. change (setup_batch_solver EROps s' (c_idx cs) (length (d_x (c_pre cs)))) with (setup_batch_solver EROps s (c_idx cs) (length (d_x (c_pre cs)))).
    destruct (setup_batch_solver _ _ _ _) as [su|]; [|reflexivity]. cbn [bind]. destruct (d_y (c_pre cs)) as [y|]; [|reflexivity].
    set (g0 := match st with None => padded_gramian EROps (gk_kernel s) (d_x (c_pre cs)) | Some g => g end).
    assert (E : match option_map (map (map (sc c))) st with None => padded_gramian EROps (gk_kernel s') (d_x (c_pre cs)) | Some g => g end
      = map (map (sc c)) g0) by (destruct st; [reflexivity|apply gram_scale]).
    rewrite E. change (gk_size s') with (gk_size s).
    assert (F : forall i st, gkp_body EROps s' su (y ++ [f0 EROps]) (map (map (sc c)) g0) i st = gkp_body EROps s su (y ++ [f0 EROps]) g0 i st).
    { intros i t. unfold gkp_body. cbv zeta. change (gk_solve s') with (gk_solve s). change (gk_reg s') with (fmul EROps (Fin c) (gk_reg s)).
      change (gk_unique s') with (gk_unique s). rewrite (map_ext _ _ (fun cd => loss_scale (y ++ [f0 EROps]) g0 _ _ cd)). reflexivity. }
    rewrite (ThinProofs.fori_ext _ _ _ _ F).
    destruct (cs_build _ _ _ _ _); reflexivity.
  Qed.
End GKP.

(** ** MMD and the herding solvers *)
Lemma mean_scalar_scale {P Y} (p0 : P) (y0 : Y) c k x y bs : 0 < c ->
  mean_scalar EROps p0 y0 (fun a b => fmul EROps (Fin c) (k a b)) x y bs = do v <- mean_scalar EROps p0 y0 k x y bs; Ok (sc c v).
Proof.
  intro Hc. unfold mean_scalar. rewrite (mean_scale p0 y0 c Hc k). destruct (compute_mean _ _ _ k _ _ _ _) as [[v|l]|]; reflexivity.
Qed.
Lemma mmd_scale {P Y} (p0 : P) (y0 : Y) c k x y bs : 0 < c ->
  mmd_compute EROps p0 y0 (fun a b => fmul EROps (Fin c) (k a b)) x y bs = do v <- mmd_compute EROps p0 y0 k x y bs; Ok (sc (sqrt c) v).
Proof.
  intro Hc. unfold mmd_compute. cbv zeta. rewrite !mean_scalar_scale by exact Hc.
  destruct (mean_scalar _ _ _ k x x _) as [xx|]; [|reflexivity]. cbn [bind].
  destruct (mean_scalar _ _ _ k y y _) as [yy|]; [|reflexivity]. cbn [bind].
  destruct (mean_scalar _ _ _ k x y _) as [xy|]; [|reflexivity]. cbn [bind]. f_equal.
  rewrite <- sc_sqrt by exact Hc. f_equal. rewrite sc_r, sc_add, sc_sub by exact Hc. rewrite <- sc_max by exact Hc. now rewrite sc_zero.
Qed.
Lemma herding_scale {P Y} (p0 : P) (y0 : Y) c (h : herding (V := ER) (P := P)) ord cs st : 0 < c ->
  herding_refine EROps p0 y0 (mkHerding (h_size h) (fun a b => fmul EROps (Fin c) (h_kernel h a b)) (h_unique h) (h_bs h) (scale_mode c (h_mode h)))
    ord cs (option_map (map (sc c)) st)
  = do (r, g) <- herding_refine EROps p0 y0 h ord cs st; Ok (r, map (sc c) g).
Proof.
  intro Hc. unfold herding_refine. cbn [h_size h_kernel h_unique h_bs h_mode].
  assert (E : forall g, greedy_selection EROps p0 y0 cs (herding_select EROps (scale_mode c (h_mode h)) (map (sc c) g)) (h_size h)
      (fun a b => fmul EROps (Fin c) (h_kernel h a b)) (h_unique h) (h_bs h) ord
    = greedy_selection EROps p0 y0 cs (herding_select EROps (h_mode h) g) (h_size h) (h_kernel h) (h_unique h) (h_bs h) ord).
  { intro g. apply (selection_scale p0 y0 c Hc). intros. now apply select_scale. }
  destruct st as [g|]; cbn [option_map bind].
  - rewrite E. destruct (greedy_selection _ _ _ _ _ _ _ _ _ _); reflexivity.
  - unfold gramian_row_mean. rewrite (mean_scale p0 y0 c Hc (h_kernel h)).
    destruct (compute_mean _ _ _ (h_kernel h) _ _ _ _) as [[v|g]|]; [reflexivity| |reflexivity]. cbn [bind scale_mean]. rewrite E.
    destruct (greedy_selection _ _ _ _ _ _ _ _ _ _); reflexivity.
Qed.
Lemma stein_scale {P Y} (p0 : P) (y0 : Y) c (s : stein (V := ER) (P := P)) ord cs : 0 < c -> s_reg s = None ->
  stein_refine EROps p0 y0 (mkStein (s_size s) (fun a b => fmul EROps (Fin c) (s_kernel s a b)) (s_unique s) (s_bs s) None) ord cs
  = stein_refine EROps p0 (Y := Y) y0 s ord cs.
Proof.
  intros Hc Hr. unfold stein_refine. cbn [s_size s_kernel s_unique s_bs]. destruct (unpack2 (c_pre cs)) as [[x w]|]; [|reflexivity]. cbn [bind].
  apply (selection_scale p0 y0 c Hc). intros i p z. unfold stein_terms. rewrite Hr. cbn [s_reg]. unfold stein_select. cbv zeta.
  rewrite (map_ext (fun a => fmul EROps (Fin c) (s_kernel s a a)) (fun a => sc c (s_kernel s a a))) by (intro; now apply sc_mul).
  rewrite <- (map_map (fun a => s_kernel s a a) (sc c)).
  rewrite (map2_map c (fun d p => fadd EROps d (fmul EROps (fofZ EROps 2) p))) by (intros; rewrite sc_r by exact Hc; apply sc_add).
  rewrite map_map. etransitivity; [|apply (sc_nanargmin c _ Hc)]. f_equal. rewrite map_map. apply map_ext. intro v.
  rewrite <- sc_sub, <- sc_add, sc_zero. f_equal. rewrite <- sc_r by exact Hc. now rewrite sc_zero.
Qed.
(** ** Kernel thinning *)
Section KT.
  Context {P Y K : Type} (p0 : P) (y0 : Y) (c : R) (Hc : 0 < c) (s s' : kthin ER P K).
  Hypothesis same : s' = mkKT (kt_size s) (fun a b => fmul EROps (Fin c) (kt_kernel s a b)) (kt_sqrt s) (kt_delta s)
    (kt_key s) (kt_log s) (kt_split s) (kt_uniform s) (kt_choice s) (kt_depth s) (kt_ord s).
  Lemma half_rec_kernel m : forall cur (orig : Data P Y ER), kt_half_rec EROps p0 y0 s' cur m orig = kt_half_rec EROps p0 y0 s cur m orig.
  Proof.
    induction m as [|m IH]; intros cur orig; [reflexivity|]. cbn [kt_half_rec].
    replace (kt_half EROps p0 y0 s') with (kt_half EROps p0 y0 (Y := Y) s) by (rewrite same; reflexivity).
    destruct (kt_half EROps p0 y0 s _) as [cc|e]; [|reflexivity]. cbn [bind]. now rewrite !IH.
  Qed.
  Lemma mapM_scale (f g : Coresubset P Y ER -> result ER) l e : (forall a, f a = do v <- g a; Ok (sc e v)) ->
    mapM f l = do vs <- mapM g l; Ok (map (sc e) vs).
  Proof.
    intro H. induction l as [|a l IH]; [reflexivity|]. cbn [mapM]. rewrite H, IH. destruct (g a); [|reflexivity]. cbn [bind].
    destruct (mapM g l); reflexivity.
  Qed.
  Lemma choose_kernel cands (d : Data P Y ER) : kt_choose EROps p0 y0 s' cands d = kt_choose EROps p0 y0 s cands d.
  Proof.
    unfold kt_choose. destruct (negb _); [reflexivity|].
    rewrite (mapM_scale _ (fun c => mmd_compute EROps p0 y0 (kt_kernel s) (as_data EROps (d_x (points EROps p0 y0 c))) d (BOne None)) cands (sqrt c)).
    - destruct (mapM _ cands); [|reflexivity]. cbn [bind]. cbv zeta. now rewrite sc_argmin by now apply sqrt_lt_R0.
    - intro a. rewrite same. now apply mmd_scale.
  Qed.
  Lemma refine_kernel (cs : Coresubset P Y ER) : kt_refine EROps p0 y0 s' cs = kt_refine EROps p0 y0 s cs.
  Proof.
    unfold kt_refine. pose proof (herding_scale p0 y0 c (mkHerding (kt_size s) (kt_kernel s) true (BOne None) Greedy) (kt_ord s (kt_size s)) cs None Hc) as E.
    cbn [h_size h_kernel h_unique h_bs h_mode scale_mode option_map] in E. rewrite same. cbn [kt_size kt_kernel kt_ord].
    etransitivity; [apply (f_equal (fun r => do x <- r; Ok (fst x)) E)|]. clear E.
    match goal with |- _ = do _ <- ?h; _ => destruct h as [[r g]|] end; reflexivity.
  Qed.
  Lemma reduce_kernel (d : Data P Y ER) : kt_reduce EROps p0 y0 s' d = kt_reduce EROps p0 y0 s d.
  Proof.
    unfold kt_reduce. assert (E : kt_candidates EROps p0 y0 s' d = kt_candidates EROps p0 y0 s d).
    { unfold kt_candidates. rewrite half_rec_kernel. rewrite same. reflexivity. }
    rewrite E. replace (kt_size s') with (kt_size s) by now rewrite same. destruct (_ <? _)%nat; [reflexivity|].
    destruct (kt_candidates _ _ _ s d); [|reflexivity]. cbn [bind]. rewrite choose_kernel.
    destruct (kt_choose _ _ _ s _ _); [|reflexivity]. cbn [bind]. destruct (cs_init _ _ _ _ _); [|reflexivity]. cbn [bind]. apply refine_kernel.
  Qed.
End KT.
Lemma thin_kernel {P Y K} (p0 : P) (y0 : Y) c (s s' : kthin ER P K) (d : Data P Y ER) size idx : 0 < c ->
  s' = mkKT (kt_size s) (fun a b => fmul EROps (Fin c) (kt_kernel s a b)) (kt_sqrt s) (kt_delta s)
    (kt_key s) (kt_log s) (kt_split s) (kt_uniform s) (kt_choice s) (kt_depth s) (kt_ord s) ->
  compress_thin EROps p0 y0 s' d size idx = compress_thin EROps p0 y0 s d size idx.
Proof.
  intros Hc ->. unfold compress_thin. rewrite (reduce_kernel p0 y0 c Hc (with_size s size)) by reflexivity. reflexivity.
Qed.
Lemma compress_kernel {P Y K} (p0 : P) (y0 : Y) c (s s' : kthin ER P K) (d : Data P Y ER) g log4 fuel : 0 < c ->
  s' = mkKT (kt_size s) (fun a b => fmul EROps (Fin c) (kt_kernel s a b)) (kt_sqrt s) (kt_delta s)
    (kt_key s) (kt_log s) (kt_split s) (kt_uniform s) (kt_choice s) (kt_depth s) (kt_ord s) ->
  compress_reduce EROps p0 y0 (mkCP g s' log4) fuel d = compress_reduce EROps p0 y0 (mkCP g s log4) fuel d.
Proof.
  intros Hc E.
  assert (R : forall gg fuel idx, compress_rec EROps p0 y0 s' d gg fuel idx = compress_rec EROps p0 y0 s d gg fuel idx).
  { intros gg fl. induction fl as [|fl IH]; intro idx; cbn [compress_rec]; destruct (_ =? _)%nat; auto.
    destruct (negb _); auto. rewrite (mapM_ext _ _ _ IH). destruct (mapM _ _) as [parts|]; [|reflexivity]. cbn [bind].
    unfold compress_half. now apply (thin_kernel p0 y0 c). }
  unfold compress_reduce. cbn [cp_kt cp_g cp_log4].
  assert (E1 : kt_size s' = kt_size s) by now rewrite E. assert (E2 : kt_choice s' = kt_choice s) by now rewrite E.
  rewrite E1, E2. destruct (_ <? _)%nat; auto. destruct (_ =? _)%nat; auto. destruct (negb _); auto. destruct (negb _); auto.
  destruct (kt_choice s _ _ _ _) as [cl|]; auto. cbn [bind]. rewrite R.
  destruct (compress_rec _ _ _ s d _ _ _) as [cm|]; auto. cbn [bind]. now rewrite (thin_kernel p0 y0 c s s' d _ _ Hc E).
Qed.
