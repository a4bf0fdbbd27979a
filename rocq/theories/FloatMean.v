(** * Rounding errors of [compute_mean] *)
From Coq Require Import List ZArith Bool Reals Lia Lra.
From Coq Require Import Floats.SpecFloat.
From Flocq Require Import Core.Core IEEE754.BinarySingleNaN.
From Verif Require Import Num Jax RSum JaxFacts DataModel MeanModel MeanGeneric MeanSpec MapReduceProofs Float FloatProofs2 FloatGreedy FloatErr.
Import ListNotations.
Open Scope R_scope.

Lemma Rsum_blocks {A} (f : A -> R) (C : list (list A)) : Rsum (map (fun c => Rsum (map f c)) C) = Rsum (map f (concat C)).
Proof. induction C as [|c C IH]; [reflexivity|]. cbn [map concat Rsum]. rewrite map_app, Rsum_app. lra. Qed.
Lemma flat_map_prod {A B C} (f : A -> B -> C) l m : flat_map (fun a => map (f a) m) l = map (fun p => f (fst p) (snd p)) (list_prod l m).
Proof. induction l as [|a l IH]; [reflexivity|]. cbn [flat_map list_prod]. rewrite map_app, map_map, IH. reflexivity. Qed.
Lemma Rsum_prod {A B} (f : A -> B -> R) l m : Rsum (map (fun p => f (fst p) (snd p)) (list_prod l m)) = Rsum (map (fun a => Rsum (map (f a) m)) l).
Proof. induction l as [|a l IH]; [reflexivity|]. cbn [map list_prod Rsum]. rewrite map_app, map_map, Rsum_app, IH. reflexivity. Qed.

Lemma map_csnd {A B C} (f : B -> C) (l : list A) (m : list B) : length m = length l -> map f m = map (fun p => f (snd p)) (combine l m).
Proof. revert m. induction l as [|a l IH]; intros [|b m] H; try discriminate; [reflexivity|]. cbn. f_equal. apply IH. now injection H. Qed.

Section Mean.
  Context (prec emax : Z) {Hprec : Prec_gt_0 prec} {Hmax : Prec_lt_emax prec emax} {Sm : SumOrder prec emax}.
  Notation flt := (binary_float prec emax).
  Notation O := (FOpsIEEE prec emax).
  Notation big := (bpow radix2 emax).
  Notation gg := (gg prec). Notation tau := (tau emax). Notation apx := (apx prec emax).

  Lemma apx_zero N : apx N (B754_zero false) 0 0.
  Proof. split; [reflexivity|]. cbn. rewrite Rminus_0_r, Rabs_R0. lra. Qed.

  Context {P Y : Type} (p0 : P) (y0 : Y) (k : P -> P -> flt) (K : R) (G : P -> Prop).
  Hypothesis Gp0 : G p0.
  Hypothesis Hk : forall x y, G x -> G y -> is_finite (k x y) = true /\ Rabs (B2R (k x y)) <= K.
  Notation kR := (fun x y => B2R (k x y)).
  Lemma K_nonneg : 0 <= K.
  Proof. pose proof (Hk p0 p0 Gp0 Gp0) as [_ A]. pose proof (Rabs_pos (B2R (k p0 p0))). lra. Qed.

  (** a point with its computed and its exact normalised weight *)
  Definition tri : Type := (P * flt * R)%type.
  Definition pt (t : tri) : P := fst (fst t).
  Definition wt (t : tri) : flt := snd (fst t).
  Definition rw (t : tri) : R := snd t.
  Definition blk (c : list tri) : list P * list flt := (map pt c, map wt c).
  Definition tok (N : nat) (t : tri) : Prop := apx N (wt t) (rw t) (rw t + tau) /\ 0 <= rw t /\ G (pt t).

  (** magnitude of the term of [t] in a row *)
  Definition my (t : tri) : R := K * (rw t + tau) + tau.
  Lemma my_pos N t : tok N t -> 0 <= my t.
  Proof. intros (_ & R & _). pose proof K_nonneg. pose proof (tau_pos emax). unfold my. assert (0 <= K * (rw t + tau)) by (apply Rmult_le_pos; lra). lra. Qed.
  Lemma my_sum_pos N l : (forall t, In t l -> tok N t) -> 0 <= Rsum (map my l).
  Proof. intros H. apply Rsum_nonneg. intros r Hr. apply in_map_iff in Hr as [t [<- Ht]]. eapply my_pos; eauto. Qed.
  Lemma sum_in {A} (f : A -> R) l (a : A) : (forall b, In b l -> 0 <= f b) -> In a l -> f a <= Rsum (map f l).
  Proof.
    induction l as [|b l IH]; intros H Ha; [destruct Ha|]. cbn [map Rsum].
    assert (0 <= Rsum (map f l)). { apply Rsum_nonneg. intros r Hr. apply in_map_iff in Hr as [c [<- Hc]]. apply H. now right. }
    destruct Ha as [->|Ha]; [lra|]. pose proof (H b (or_introl eq_refl)). assert (f a <= Rsum (map f l)) by (apply IH; auto; intros; apply H; now right). lra.
  Qed.

  Lemma bdot_blk x c : bdot O k x (blk c) = fsum O (map (fun t => Bmult mode_NE (k x (pt t)) (wt t)) c).
  Proof.
    unfold bdot, blk, fdot. cbn [fst snd]. rewrite map_map.
    replace (map2 (fmul O) (map (fun t => k x (pt t)) c) (map wt c)) with (map (fun t => Bmult mode_NE (k x (pt t)) (wt t)) c); [reflexivity|].
    induction c; [reflexivity|]. cbn [map map2]. now rewrite IHc.
  Qed.
  Lemma row_apx Ly x c : G x -> (forall t, In t c -> tok Ly t) -> gg (S Ly + length c) * Rsum (map my c) < big ->
    apx (S Ly + length c) (bdot O k x (blk c)) (Rsum (map (fun t => B2R (k x (pt t)) * rw t) c)) (Rsum (map my c)).
  Proof.
    intros Gx H L. rewrite bdot_blk.
    apply (apx_sum prec emax (fun t => Bmult mode_NE (k x (pt t)) (wt t)) (fun t => B2R (k x (pt t)) * rw t) my (S Ly) c); auto.
    intros t Ht. destruct (H t Ht) as (A & R & GT).
    replace (S Ly) with (S (0 + Ly)) by lia. apply apx_mult; auto.
    - destruct (Hk x (pt t) Gx GT). now apply apx_exact.
    - cbn [plus]. fold (my t). eapply Rle_lt_trans; [|exact L].
      pose proof (my_pos _ _ (H t Ht)). pose proof (gg_ge1 prec (S Ly)).
      assert (my t <= Rsum (map my c)) by (apply sum_in; auto; intros; eapply my_pos; eauto).
      apply Rmult_le_compat; try lra. apply gg_mono. lia.
  Qed.

  Definition bprod (xc yc : list tri) : flt := fdot O (snd (blk xc)) (bslice O k (blk xc) (blk yc)).
  Lemma bprod_fold xc yc : bprod xc yc = fsum O (map (fun s => Bmult mode_NE (wt s) (bdot O k (pt s) (blk yc))) xc).
  Proof.
    unfold bprod, bslice, fdot. cbn [blk fst snd]. rewrite map_map.
    change (map pt yc, map wt yc) with (blk yc).
    replace (map2 (fmul O) (map wt xc) (map (fun x => bdot O k (pt x) (blk yc)) xc)) with (map (fun s => Bmult mode_NE (wt s) (bdot O k (pt s) (blk yc))) xc); [reflexivity|].
    induction xc; [reflexivity|]. cbn [map map2]. now rewrite IHxc.
  Qed.
  Definition mx (q : R) (s : tri) : R := (rw s + tau) * q + tau.
  Lemma mx_pos N R s : tok N s -> 0 <= R -> 0 <= mx R s.
  Proof. intros (_ & A & _) B. pose proof (tau_pos emax). unfold mx. assert (0 <= (rw s + tau) * R) by (apply Rmult_le_pos; lra). lra. Qed.
  Lemma mx_sum_pos N R l : (forall t, In t l -> tok N t) -> 0 <= R -> 0 <= Rsum (map (mx R) l).
  Proof. intros H B. apply Rsum_nonneg. intros r Hr. apply in_map_iff in Hr as [t [<- Ht]]. eapply mx_pos; eauto. Qed.
  Lemma bprod_apx Lx Ly bx by_ xc yc : (forall t, In t xc -> tok Lx t) -> (forall t, In t yc -> tok Ly t) -> (length xc <= bx)%nat -> (length yc <= by_)%nat ->
    gg (S Ly + by_) * Rsum (map my yc) < big ->
    gg (S (Lx + (S Ly + by_)) + bx) * Rsum (map (mx (Rsum (map my yc))) xc) < big ->
    apx (S (Lx + (S Ly + by_)) + bx) (bprod xc yc)
      (Rsum (map (fun s => rw s * Rsum (map (fun t => B2R (k (pt s) (pt t)) * rw t) yc)) xc)) (Rsum (map (mx (Rsum (map my yc))) xc)).
  Proof.
    intros HX HY LX LY B1 B2. rewrite bprod_fold. set (R := Rsum (map my yc)) in *.
    assert (RP : 0 <= R) by (eapply my_sum_pos; eauto).
    pose proof (apx_sum prec emax (fun s => Bmult mode_NE (wt s) (bdot O k (pt s) (blk yc)))
      (fun s => rw s * Rsum (map (fun t => B2R (k (pt s) (pt t)) * rw t) yc)) (mx R) (S (Lx + (S Ly + by_))) xc) as F.
    pose proof (mx_sum_pos Lx R xc HX RP) as MP.
    assert (B3 : gg (S (Lx + (S Ly + by_)) + length xc) * Rsum (map (mx R) xc) < big).
    { eapply Rle_lt_trans; [|exact B2]. apply Rmult_le_compat_r; auto. apply gg_mono. lia. }
    eapply apx_mono; [apply F; auto|lia|lra].
    intros s Hs. destruct (HX s Hs) as (A & RS & GS). unfold mx. apply apx_mult; auto.
    - apply (apx_mono prec emax (S Ly + length yc) _ _ _ R); [apply row_apx; [exact GS|exact HY|]|lia|lra]. fold R. eapply Rle_lt_trans; [|exact B1]. apply Rmult_le_compat_r; auto. apply gg_mono. lia.
    - fold (mx R s). eapply Rle_lt_trans; [|exact B2].
      pose proof (mx_pos _ R _ (HX s Hs) RP).
      assert (mx R s <= Rsum (map (mx R) xc)) by (apply sum_in; auto; intros; eapply mx_pos; eauto).
      pose proof (gg_ge1 prec (S (Lx + (S Ly + by_)))). apply Rmult_le_compat; try lra. apply gg_mono. lia.
  Qed.

  Definition stot (XC YC : list (list tri)) : R :=
    Rsum (map (fun s => (rw s + tau) * Rsum (map my (concat YC)) + INR (length YC) * tau) (concat XC)).
  Lemma total_apx Lx Ly bx by_ XC YC :
    (forall t, In t (concat XC) -> tok Lx t) -> (forall t, In t (concat YC) -> tok Ly t) ->
    (forall c, In c XC -> (length c <= bx)%nat) -> (forall c, In c YC -> (length c <= by_)%nat) ->
    gg (S Ly + by_) * Rsum (map my (concat YC)) < big ->
    gg (S (Lx + (S Ly + by_)) + bx + length XC * length YC) * stot XC YC < big ->
    apx (S (Lx + (S Ly + by_)) + bx + length XC * length YC) (btotal O k (map blk XC) (map blk YC))
      (Rsum (map (fun s => rw s * Rsum (map (fun t => B2R (k (pt s) (pt t)) * rw t) (concat YC))) (concat XC))) (stot XC YC).
  Proof.
    intros HX HY LX LY B1 B2. unfold btotal.
    set (N := (S (Lx + (S Ly + by_)) + bx)%nat) in *.
    assert (E : flat_map (fun xb => map (fun yb => fdot O (snd xb) (bslice O k xb yb)) (map blk YC)) (map blk XC)
      = map (fun p => bprod (fst p) (snd p)) (list_prod XC YC)).
    { rewrite <- flat_map_prod. rewrite !flat_map_concat_map, map_map. f_equal. apply map_ext. intros a. rewrite map_map. reflexivity. }
    rewrite E. change (fadd O) with (Bplus mode_NE (prec := prec) (emax := emax)).
    assert (TX : forall c, In c XC -> forall t, In t c -> tok Lx t) by (intros c Hc t Ht; apply HX; apply in_concat; eauto).
    assert (TY : forall c, In c YC -> forall t, In t c -> tok Ly t) by (intros c Hc t Ht; apply HY; apply in_concat; eauto).
    set (Sp := fun p : list tri * list tri => Rsum (map (mx (Rsum (map my (snd p)))) (fst p))).
    assert (RP : forall c, In c YC -> 0 <= Rsum (map my c)) by (intros c Hc; eapply my_sum_pos; eauto).
    assert (ES : Rsum (map Sp (list_prod XC YC)) = stot XC YC).
    { unfold Sp. rewrite (Rsum_prod (fun xc yc => Rsum (map (mx (Rsum (map my yc))) xc))). unfold stot.
      rewrite <- Rsum_blocks. apply Rsum_map_ext. intros xc _.
      etransitivity; [apply (Rsum_swap (fun yc s => mx (Rsum (map my yc)) s) YC xc)|].
      apply Rsum_map_ext. intros s _. unfold mx. rewrite Rsum_map_add, Rsum_map_const. f_equal.
      rewrite Rsum_map_scal. f_equal. now rewrite <- Rsum_blocks. }
    assert (EX : Rsum (map (fun p => Rsum (map (fun s => rw s * Rsum (map (fun t => B2R (k (pt s) (pt t)) * rw t) (snd p))) (fst p))) (list_prod XC YC))
      = Rsum (map (fun s => rw s * Rsum (map (fun t => B2R (k (pt s) (pt t)) * rw t) (concat YC))) (concat XC))).
    { rewrite (Rsum_prod (fun xc yc => Rsum (map (fun s => rw s * Rsum (map (fun t => B2R (k (pt s) (pt t)) * rw t) yc)) xc))).
      rewrite <- Rsum_blocks. apply Rsum_map_ext. intros xc _.
      etransitivity; [apply (Rsum_swap (fun yc s => rw s * Rsum (map (fun t => B2R (k (pt s) (pt t)) * rw t) yc)) YC xc)|].
      apply Rsum_map_ext. intros s _. rewrite Rsum_map_scal. f_equal. now rewrite <- Rsum_blocks. }
    assert (SPP : forall p, In p (list_prod XC YC) -> 0 <= Sp p).
    { intros [xc yc] Hp. apply in_prod_iff in Hp as [P1 P2]. unfold Sp. cbn. eapply mx_sum_pos; eauto. }
    rewrite <- EX, <- ES. rewrite <- ES in B2. rewrite <- prod_length in B2 |- *.
    pose proof (apx_fold prec emax (fun p => bprod (fst p) (snd p))
      (fun p => Rsum (map (fun s => rw s * Rsum (map (fun t => B2R (k (pt s) (pt t)) * rw t) (snd p))) (fst p))) Sp N (list_prod XC YC)) as F.
    specialize (F) with (acc := B754_zero false) (x0 := 0) (S0 := 0) (M := N).
    rewrite !Rplus_0_l in F. apply F; auto using apx_zero.
    intros [xc yc] Hp. pose proof (SPP _ Hp) as S1. assert (S2 : Sp (xc, yc) <= Rsum (map Sp (list_prod XC YC))) by (apply sum_in; auto).
    apply in_prod_iff in Hp as [P1 P2]. cbn [fst snd]. unfold Sp at 1. cbn [fst snd]. apply bprod_apx; eauto.
    - eapply Rle_lt_trans; [|exact B1]. pose proof (gg_ge1 prec (S Ly + by_)). apply Rmult_le_compat_l; [lra|].
      rewrite <- Rsum_blocks. apply (sum_in (fun c => Rsum (map my c))); auto.
    - fold N. eapply Rle_lt_trans; [|exact B2]. pose proof (gg_ge1 prec N). apply Rmult_le_compat; try lra; auto. apply gg_mono. lia.
  Qed.

  (** ** Data sets *)
  Notation wok := (wok prec emax).
  Definition tot (w : list flt) : R := Rsum (map B2R w).
  Definition tris (xs : list P) (w : list flt) : list tri := map (fun p => (fst p, nw prec emax w (snd p), B2R (snd p) / tot w)) (combine xs w).
  Definition padded (xs : list P) (w : list flt) (b : nat) : list tri := tris xs w ++ repeat (p0, B754_zero false, 0) (cdiv (length xs) b * b - length xs).
  Lemma gblocks_tri xs w (y : option (list Y)) b : length w = length xs -> (0 < b)%nat ->
    gblocks O p0 (mkData xs w y) b = map blk (chunks b (padded xs w b)).
  Proof.
    intros HL Hb. unfold gblocks. cbn [d_x d_w]. set (pad := (cdiv (length xs) b * b - length xs)%nat).
    assert (E1 : xs ++ repeat p0 pad = map pt (padded xs w b)).
    { unfold padded. rewrite map_app. f_equal.
      - unfold tris. rewrite map_map. unfold pt. cbn [fst]. symmetry. apply combine_fst. auto.
      - fold pad. generalize pad as q. induction q; cbn; [reflexivity|]. now rewrite <- IHq. }
    assert (E2 : normalize_w O true w ++ repeat (f0 O) pad = map wt (padded xs w b)).
    { unfold padded. rewrite map_app. f_equal.
      - unfold tris, normalize_w. rewrite !map_map. unfold wt. cbn [fst snd].
        rewrite (map_csnd _ xs w) by auto. reflexivity.
      - fold pad. generalize pad as q. induction q; cbn; [reflexivity|]. now rewrite <- IHq. }
    rewrite E1, E2, !map_chunks. generalize (chunks b (padded xs w b)) as l. induction l; [reflexivity|]. cbn. now rewrite IHl.
  Qed.
  Lemma padded_length xs w b : length w = length xs -> (0 < b)%nat -> length (padded xs w b) = (b * cdiv (length xs) b)%nat.
  Proof.
    intros HL Hb. unfold padded, tris. rewrite app_length, map_length, combine_length, repeat_length, HL, Nat.min_id.
    pose proof (cdiv_spec (length xs) b Hb). lia.
  Qed.
  Lemma padded_sum (f : tri -> R) xs w b : f (p0, B754_zero false, 0) = 0 ->
    Rsum (map f (padded xs w b)) = Rsum (map (fun p => f (fst p, nw prec emax w (snd p), B2R (snd p) / tot w)) (combine xs w)).
  Proof.
    intros H. unfold padded, tris. rewrite map_app, Rsum_app, map_map.
    rewrite (Rsum_zero (map f (repeat _ _))); [lra|]. intros a Ha. apply in_map_iff in Ha as [t [<- Ht]]. apply repeat_spec in Ht. now subst.
  Qed.
  Lemma padded_tok xs w b : (forall x, In x xs -> G x) -> length w = length xs -> Forall wok w -> 0 < tot w -> gg (length w) * tot w < big ->
    gg (length w + 1) * (1 + tau) < big -> forall t, In t (padded xs w b) -> tok (length xs + 1) t.
  Proof.
    intros GX HL Fw TP B1 B2 t Ht. unfold padded in Ht. apply in_app_or in Ht as [Ht|Ht].
    - unfold tris in Ht. apply in_map_iff in Ht as [[x v] [<- Hp]]. pose proof (in_combine_l _ _ _ _ Hp) as Hx. apply in_combine_r in Hp. cbn [fst snd]. split; [|split; [|exact (GX x Hx)]].
      + unfold wt, rw. cbn [fst snd]. rewrite <- HL. now apply nw_apx.
      + unfold rw. cbn [snd]. apply Rmult_le_pos; [|left; now apply Rinv_0_lt_compat]. rewrite Forall_forall in Fw. now apply Fw.
    - apply repeat_spec in Ht. subst t. split; [|split; [unfold rw; cbn; lra|exact Gp0]]. unfold wt, rw. cbn [fst snd].
      eapply apx_mono; [apply apx_zero|reflexivity|]. pose proof (tau_pos emax). lra.
  Qed.
  Lemma padded_rw xs w b : length w = length xs -> 0 < tot w -> Rsum (map rw (padded xs w b)) = 1.
  Proof.
    intros HL TP. rewrite padded_sum by reflexivity. unfold rw. cbn [snd].
    replace (map (fun p : P * flt => B2R (snd p) / tot w) (combine xs w)) with (map (fun v => B2R v / tot w) w).
    - rewrite Rsum_map_div. fold (tot w). field. lra.
    - rewrite (map_csnd _ xs w) by auto. reflexivity.
  Qed.

  (** number of roundings behind an entry of the mean *)
  Definition depth (n m bx by_ : nat) : nat := (n + m + bx + by_ + cdiv n bx * cdiv m by_ + 4)%nat.
  (** magnitude of the mean with the contribution of underflow *)
  Definition msize (n m bx by_ : nat) : R :=
    let a := INR (bx * cdiv n bx) in let c := INR (by_ * cdiv m by_) in
    (1 + a * tau) * (K * (1 + c * tau) + c * tau) + a * (INR (cdiv m by_) * tau).

  Lemma blocks_apx xs w (sx : option (list Y)) ys v (sy : option (list Y)) bx by_ :
    (forall x, In x xs -> G x) -> (forall y, In y ys -> G y) -> length w = length xs -> length v = length ys -> (0 < bx)%nat -> (0 < by_)%nat ->
    Forall wok w -> Forall wok v -> 0 < tot w -> 0 < tot v ->
    gg (length w) * tot w < big -> gg (length v) * tot v < big ->
    gg (depth (length xs) (length ys) bx by_) * (1 + tau) < big ->
    gg (depth (length xs) (length ys) bx by_) * msize (length xs) (length ys) bx by_ < big ->
    apx (depth (length xs) (length ys) bx by_) (btotal O k (gblocks O p0 (mkData xs w sx) bx) (gblocks O p0 (mkData ys v sy) by_))
      (wavg (fun a => wavg (fun b => B2R (k a b)) ys (map B2R v)) xs (map B2R w)) (msize (length xs) (length ys) bx by_).
  Proof.
    intros GX GY HLx HLy Hbx Hby Fw Fv Tw Tv B1 B2 B3 B4. rewrite !gblocks_tri by assumption.
    pose proof (tau_pos emax) as TP. pose proof K_nonneg as KP.
    assert (GB : forall N, (N <= depth (length xs) (length ys) bx by_)%nat -> gg N * (1 + tau) < big).
    { intros N HN. eapply Rle_lt_trans; [|exact B3]. apply Rmult_le_compat_r; [lra|]. now apply gg_mono. }
    destruct (chunks_mult bx (cdiv (length xs) bx) (padded xs w bx) Hbx (padded_length xs w bx HLx Hbx)) as [CX1 CX2].
    destruct (chunks_mult by_ (cdiv (length ys) by_) (padded ys v by_) Hby (padded_length ys v by_ HLy Hby)) as [CY1 CY2].
    pose proof (chunks_concat bx (padded xs w bx) Hbx) as CCX. pose proof (chunks_concat by_ (padded ys v by_) Hby) as CCY.
    assert (TKX : forall t, In t (padded xs w bx) -> tok (length xs + 1) t).
    { apply padded_tok; auto. apply GB. unfold depth. lia. }
    assert (TKY : forall t, In t (padded ys v by_) -> tok (length ys + 1) t).
    { apply padded_tok; auto. apply GB. unfold depth. lia. }
    assert (RY : Rsum (map my (padded ys v by_)) = K * (1 + INR (by_ * cdiv (length ys) by_) * tau) + INR (by_ * cdiv (length ys) by_) * tau).
    { unfold my. rewrite Rsum_map_add, Rsum_map_const, Rsum_map_scal, Rsum_map_add, Rsum_map_const, padded_rw, padded_length by assumption. ring. }
    assert (ST : stot (chunks bx (padded xs w bx)) (chunks by_ (padded ys v by_)) = msize (length xs) (length ys) bx by_).
    { unfold stot. rewrite CCX, CCY, RY, CY1. unfold msize. rewrite Rsum_map_add, Rsum_map_const, Rsum_map_scal_r, Rsum_map_add, Rsum_map_const, padded_rw, padded_length by assumption. ring. }
    pose proof (total_apx (length xs + 1) (length ys + 1) bx by_ (chunks bx (padded xs w bx)) (chunks by_ (padded ys v by_))) as T.
    rewrite CCX, CCY, CX1, CY1, ST in T.
    assert (D : (S (length xs + 1 + (S (length ys + 1) + by_)) + bx + cdiv (length xs) bx * cdiv (length ys) by_ = depth (length xs) (length ys) bx by_)%nat) by (unfold depth; lia).
    rewrite D in T.
    replace (wavg (fun a => wavg (fun b => B2R (k a b)) ys (map B2R v)) xs (map B2R w))
      with (Rsum (map (fun s => rw s * Rsum (map (fun t => B2R (k (pt s) (pt t)) * rw t) (padded ys v by_))) (padded xs w bx))).
    - apply T; auto.
      + intros c Hc. rewrite (CX2 c Hc). lia.
      + intros c Hc. rewrite (CY2 c Hc). lia.
      + eapply Rle_lt_trans; [|exact B4]. rewrite RY.
        assert (C0 : 0 <= INR (by_ * cdiv (length ys) by_) * tau) by (apply Rmult_le_pos; [apply pos_INR|lra]).
        assert (A0 : 0 <= INR (bx * cdiv (length xs) bx) * tau) by (apply Rmult_le_pos; [apply pos_INR|lra]).
        assert (R0 : 0 <= K * (1 + INR (by_ * cdiv (length ys) by_) * tau) + INR (by_ * cdiv (length ys) by_) * tau).
        { assert (0 <= K * (1 + INR (by_ * cdiv (length ys) by_) * tau)) by (apply Rmult_le_pos; lra). lra. }
        pose proof (gg_ge1 prec (S (length ys + 1) + by_)). apply Rmult_le_compat; try lra; [apply gg_mono; unfold depth; lia|].
        unfold msize. assert (0 <= INR (bx * cdiv (length xs) bx) * (INR (cdiv (length ys) by_) * tau)).
        { apply Rmult_le_pos; [apply pos_INR|]. apply Rmult_le_pos; [apply pos_INR|lra]. }
        assert (0 <= INR (bx * cdiv (length xs) bx) * tau * (K * (1 + INR (by_ * cdiv (length ys) by_) * tau) + INR (by_ * cdiv (length ys) by_) * tau)) by (apply Rmult_le_pos; lra).
        lra.
    - rewrite padded_sum by (unfold rw; cbn; ring). unfold rw, pt. cbn [fst snd].
      unfold wavg at 1. unfold wsum. unfold Rdiv at 2. rewrite <- Rsum_map_scal_r.
      replace (combine xs (map B2R w)) with (map (fun p => (fst p, B2R (snd p))) (combine xs w)).
      2:{ clear. revert w. induction xs; intros [|b w]; cbn; auto. now rewrite IHxs. }
      rewrite map_map. apply Rsum_map_ext. intros [x a] _. cbn [fst snd].
      assert (EI : Rsum (map (fun t : tri => B2R (k x (pt t)) * rw t) (padded ys v by_)) = wavg (fun b => B2R (k x b)) ys (map B2R v)).
      { rewrite padded_sum by (unfold rw; cbn; ring). unfold rw, pt. cbn [fst snd]. unfold wavg, wsum. unfold Rdiv at 2. rewrite <- Rsum_map_scal_r.
        replace (combine ys (map B2R v)) with (map (fun p => (fst p, B2R (snd p))) (combine ys v)).
        2:{ clear. revert v. induction ys; intros [|b v]; cbn; auto. now rewrite IHys. }
        rewrite map_map. apply Rsum_map_ext. intros [y c] _. cbn [fst snd]. unfold tot. field. unfold tot in Tv. lra. }
      unfold pt, rw in EI. cbn [fst snd] in EI. rewrite EI. unfold tot. field. unfold tot in Tw. lra.
  Qed.

  (** a single row: the mean of the kernel at [x] over one data set *)
  Definition rdepth (m by_ : nat) : nat := (m + by_ + cdiv m by_ + 2)%nat.
  Definition rsize (m by_ : nat) : R := let c := INR (by_ * cdiv m by_) in K * (1 + c * tau) + c * tau.
  Lemma browsum_blk x YC : browsum O k (map blk YC) x = fsum O (map (fun yc => bdot O k x (blk yc)) YC).
  Proof. unfold browsum. rewrite map_map. reflexivity. Qed.
  Lemma row_total_apx x ys v (sy : option (list Y)) by_ :
    G x -> (forall y, In y ys -> G y) -> length v = length ys -> (0 < by_)%nat -> Forall wok v -> 0 < tot v ->
    gg (length v) * tot v < big -> gg (rdepth (length ys) by_) * (1 + tau) < big -> gg (rdepth (length ys) by_) * rsize (length ys) by_ < big ->
    apx (rdepth (length ys) by_) (browsum O k (gblocks O p0 (mkData ys v sy) by_) x) (wavg (fun b => B2R (k x b)) ys (map B2R v)) (rsize (length ys) by_).
  Proof.
    intros Gx GY HL Hb Fv Tv B1 B2 B3. rewrite gblocks_tri, browsum_blk by assumption.
    pose proof (tau_pos emax) as TP. pose proof K_nonneg as KP.
    destruct (chunks_mult by_ (cdiv (length ys) by_) (padded ys v by_) Hb (padded_length ys v by_ HL Hb)) as [CY1 CY2].
    pose proof (chunks_concat by_ (padded ys v by_) Hb) as CCY. set (YC := chunks by_ (padded ys v by_)) in *.
    assert (TK : forall t, In t (padded ys v by_) -> tok (length ys + 1) t).
    { apply padded_tok; auto. eapply Rle_lt_trans; [|exact B2]. apply Rmult_le_compat_r; [lra|]. apply gg_mono. unfold rdepth. lia. }
    assert (TC : forall c, In c YC -> forall t, In t c -> tok (length ys + 1) t) by (intros c Hc t Ht; apply TK; rewrite <- CCY; apply in_concat; eauto).
    assert (RY : Rsum (map (fun c => Rsum (map my c)) YC) = rsize (length ys) by_).
    { rewrite Rsum_blocks, CCY. unfold my, rsize. rewrite Rsum_map_add, Rsum_map_const, Rsum_map_scal, Rsum_map_add, Rsum_map_const, padded_rw, padded_length by assumption. ring. }
    assert (RP : forall c, In c YC -> 0 <= Rsum (map my c)) by (intros c Hc; eapply my_sum_pos; eauto).
    pose proof (apx_sum prec emax (fun yc => bdot O k x (blk yc)) (fun yc => Rsum (map (fun t => B2R (k x (pt t)) * rw t) yc)) (fun c => Rsum (map my c)) (S (length ys + 1) + by_) YC) as F.
    rewrite RY, CY1, Rsum_blocks, CCY in F.
    replace (S (length ys + 1) + by_ + cdiv (length ys) by_)%nat with (rdepth (length ys) by_) in F by (unfold rdepth; lia).
    replace (wavg (fun b => B2R (k x b)) ys (map B2R v)) with (Rsum (map (fun t : tri => B2R (k x (pt t)) * rw t) (padded ys v by_))).
    - apply F; auto. intros c Hc. pose proof (RP c Hc).
      assert (Q : gg (S (length ys + 1) + length c) * Rsum (map my c) < big).
      { eapply Rle_lt_trans; [|exact B3]. pose proof (gg_ge1 prec (S (length ys + 1) + length c)). apply Rmult_le_compat; try lra.
        - apply gg_mono. rewrite (CY2 c Hc). unfold rdepth. lia.
        - rewrite <- RY. apply (sum_in (fun c => Rsum (map my c))); auto. }
      pose proof (row_apx (length ys + 1) x c Gx (TC c Hc) Q) as A. eapply apx_mono; [exact A|rewrite (CY2 c Hc); lia|lra].
    - rewrite padded_sum by (unfold rw; cbn; ring). unfold rw, pt. cbn [fst snd]. unfold wavg, wsum. unfold Rdiv at 2. rewrite <- Rsum_map_scal_r.
      replace (combine ys (map B2R v)) with (map (fun p => (fst p, B2R (snd p))) (combine ys v)).
      2:{ clear. revert v. induction ys; intros [|b v]; cbn; auto. now rewrite IHys. }
      rewrite map_map. apply Rsum_map_ext. intros [y c] _. cbn [fst snd]. unfold tot. field. unfold tot in Tv. lra.
  Qed.
End Mean.
