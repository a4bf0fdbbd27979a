(** * Blocked kernel means with a kernel that is not a number at the padding: lemmas *)
From Coq Require Import List ZArith Bool Reals Lia Lra.
From Coq Require Import Floats.SpecFloat.
From Flocq Require Import Core.Core IEEE754.BinarySingleNaN.
From Verif Require Import Num Jax RSum JaxFacts DataModel MeanModel MeanGeneric MetricModel
  SumSpec SumProofs Float FloatErrSpec.
Import ListNotations.

(** without padding the padding row is not used *)
Lemma no_pad n b : (0 < b)%nat -> (b <= n)%nat -> (n mod b = 0)%nat -> (cdiv n b * b - n = 0)%nat.
Proof.
  intros Hb Hn H. unfold cdiv. pose proof (Nat.div_mod_eq n b) as E. rewrite H, Nat.add_0_r in E.
  replace (n + (b - 1))%nat with ((b - 1) + n / b * b)%nat by lia. rewrite Nat.div_add by lia. rewrite (Nat.div_small (b - 1) b) by lia. lia.
Qed.
Lemma some_pad n b : (0 < b)%nat -> (n mod b <> 0)%nat -> (0 < cdiv n b * b - n)%nat.
Proof.
  intros Hb H. unfold cdiv. pose proof (Nat.div_mod_eq n b) as E. pose proof (Nat.mod_upper_bound n b ltac:(lia)) as U.
  set (q := (n / b)%nat) in *. set (r := (n mod b)%nat) in *. clearbody q r.
  replace (n + (b - 1))%nat with (r - 1 + (S q) * b)%nat by lia. rewrite Nat.div_add by lia. rewrite (Nat.div_small (r - 1) b) by lia. lia.
Qed.
Lemma eff_used n b : eff_block n b = block_used n b.
Proof. destruct b as [z|]; unfold block_used, eff_block; [|reflexivity]. lia. Qed.
Lemma block_convert_pad {V} (O : FOps V) {P Y} (p0 p1 : P) (y0 : Y) (d : Data P Y V) bs :
  d_x d <> [] -> (length (d_x d) mod block_used (length (d_x d)) bs = 0)%nat ->
  block_convert O p0 y0 d bs = block_convert O p1 y0 d bs.
Proof.
  intros H M. destruct (block_convert_gen O p0 y0 d bs H) as [E ->]. destruct (block_convert_gen O p1 y0 d bs H) as [_ ->].
  rewrite <- eff_used in M. unfold gblocks. rewrite no_pad by lia. reflexivity.
Qed.
Lemma mean_scalar_pad {V} (O : FOps V) {P Y} (p0 p1 : P) (y0 : Y) k (x y : Data P Y V) b0 b1 :
  d_x x <> [] -> d_x y <> [] ->
  (length (d_x x) mod block_used (length (d_x x)) b0 = 0)%nat -> (length (d_x y) mod block_used (length (d_x y)) b1 = 0)%nat ->
  mean_scalar O p0 y0 k x y (BTwo b0 b1) = mean_scalar O p1 y0 k x y (BTwo b0 b1).
Proof.
  intros Hx Hy Mx My. unfold mean_scalar, compute_mean. cbn [bs_leaves leaves_repeat app rev length Nat.sub repeat nth].
  rewrite (block_convert_pad O p0 p1 y0 x b0 Hx Mx), (block_convert_pad O p0 p1 y0 y b1 Hy My). reflexivity.
Qed.
Lemma mean_one_two {V} (O : FOps V) {P Y} (p0 : P) (y0 : Y) k (x y : Data P Y V) b :
  mean_scalar O p0 y0 k x y (BOne b) = mean_scalar O p0 y0 k x y (BTwo b b).
Proof. reflexivity. Qed.

Section Nan.
  Context (prec emax : Z) {Hprec : Prec_gt_0 prec} {Hmax : Prec_lt_emax prec emax} {Sm : SumOrder prec emax}.
  Notation flt := (binary_float prec emax).
  Notation O := (FOpsIEEE prec emax).
  Definition isn (v : flt) : Prop := v = B754_nan.

  Lemma nan_plus (a b : flt) : isn a \/ isn b -> isn (Bplus mode_NE a b).
  Proof. unfold isn. intros [->| ->]; [reflexivity|]. destruct a as [[]|[]| |]; reflexivity. Qed.
  Lemma nan_mult_l (a b : flt) : isn a -> isn (Bmult mode_NE a b).
  Proof. intros ->. reflexivity. Qed.
  Lemma nan_mult_r (a b : flt) : isn b -> isn (Bmult mode_NE a b).
  Proof. unfold isn. intros ->. destruct a as [[]|[]| |]; reflexivity. Qed.
  Lemma nan_sum (l : list flt) : In B754_nan l -> isn (fsum O l).
  Proof. intros H. eapply summed_absorb; [apply nan_plus| |apply sum_fun_ok]. apply Exists_exists. exists B754_nan. now split. Qed.
  Lemma nan_map2_l (l m : list flt) : In B754_nan l -> length l = length m -> In B754_nan (map2 (fmul O) l m).
  Proof.
    revert m. induction l as [|a l IH]; intros [|b m] H L; try discriminate; [destruct H|]. cbn [map2].
    destruct H as [->|H]; [left; now apply (nan_mult_l B754_nan)|right; apply IH; auto].
  Qed.
  Lemma nan_map2_r (l m : list flt) : In B754_nan m -> length l = length m -> In B754_nan (map2 (fmul O) l m).
  Proof.
    revert m. induction l as [|a l IH]; intros [|b m] H L; try discriminate; [destruct H|]. cbn [map2].
    destruct H as [->|H]; [left; now apply nan_mult_r|right; apply IH; auto].
  Qed.
  Lemma nan_dot_l (l m : list flt) : In B754_nan l -> length l = length m -> isn (fdot O l m).
  Proof. intros. now apply nan_sum, nan_map2_l. Qed.
  Lemma nan_dot_r (l m : list flt) : In B754_nan m -> length l = length m -> isn (fdot O l m).
  Proof. intros. now apply nan_sum, nan_map2_r. Qed.
  Lemma nan_fold (l : list flt) a : isn a \/ In B754_nan l -> isn (fold_left (fadd O) l a).
  Proof.
    revert a. induction l as [|b l IH]; intros a H; cbn [fold_left]; [destruct H as [H|[]]; exact H|].
    apply IH. destruct H as [H|[H|H]]; [left; apply nan_plus; now left|left; apply nan_plus; right; exact H|now right].
  Qed.

  Section Mean.
    Context {P Y : Type} (p0 : P) (y0 : Y) (k : P -> P -> flt).
    Lemma total_nan (bx by_ : list (list P * list flt)) xb yb x y :
      In xb bx -> In yb by_ -> In x (fst xb) -> In y (fst yb) ->
      length (fst xb) = length (snd xb) -> length (fst yb) = length (snd yb) -> isn (k x y) -> isn (btotal O k bx by_).
    Proof.
      intros Hxb Hyb Hx Hy Lx Ly N. unfold btotal. apply nan_fold. right. apply in_flat_map. exists xb. split; auto.
      apply in_map_iff. exists yb. split; auto.
      apply nan_dot_r; [|unfold bslice; rewrite map_length; auto]. unfold bslice. apply in_map_iff. exists x. split; auto.
      unfold bdot. apply nan_dot_l; [|now rewrite map_length]. apply in_map_iff. exists y. split; auto.
    Qed.
    Lemma pad_block (d : Data P Y flt) b p : length (d_w d) = length (d_x d) -> (0 < b)%nat ->
      In p (d_x d ++ repeat p0 (cdiv (length (d_x d)) b * b - length (d_x d))) ->
      exists blk, In blk (gblocks O p0 d b) /\ In p (fst blk) /\ length (fst blk) = length (snd blk).
    Proof.
      intros HL Hb Hp. destruct (gblocks_facts O p0 d b HL Hb) as (F1 & F2 & F3 & F4). rewrite <- F1 in Hp.
      apply in_concat in Hp as (l & Hl & Hp). apply in_map_iff in Hl as (blk & <- & Hl). exists blk. split; [exact Hl|split; [exact Hp|]].
      rewrite Forall_forall in F3. now apply F3.
    Qed.
    (** [padded d b]: the rows the scan visits *)
    Definition visited (d : Data P Y flt) (b : option Z) (p : P) : Prop :=
      In p (d_x d) \/ p = p0 /\ (length (d_x d) mod block_used (length (d_x d)) b <> 0)%nat.
    Lemma visited_in d b p : d_x d <> [] -> visited d b p ->
      In p (d_x d ++ repeat p0 (cdiv (length (d_x d)) (eff_block (length (d_x d)) b) * eff_block (length (d_x d)) b - length (d_x d))).
    Proof.
      intros H [Hp|[-> M]]; apply in_or_app; [now left|right]. rewrite <- eff_used in M.
      destruct (block_convert_gen O p0 y0 d b H) as [E _]. pose proof (some_pad _ _ (proj1 E) M) as Q.
      set (n := (_ - _)%nat) in *. destruct n; [lia|now left].
    Qed.
    Lemma mean_nan (d1 d2 : Data P Y flt) b0 b1 x y :
      d_x d1 <> [] -> d_x d2 <> [] -> length (d_w d1) = length (d_x d1) -> length (d_w d2) = length (d_x d2) ->
      visited d1 b0 x -> visited d2 b1 y -> isn (k x y) ->
      mean_scalar O p0 y0 k d1 d2 (BTwo b0 b1) = Ok B754_nan.
    Proof.
      intros H1 H2 L1 L2 V1 V2 N. unfold mean_scalar, compute_mean. cbn [bs_leaves leaves_repeat app rev length Nat.sub repeat nth].
      destruct (block_convert_gen O p0 y0 d1 b0 H1) as [E1 ->]. destruct (block_convert_gen O p0 y0 d2 b1 H2) as [E2 ->]. cbn [bind].
      rewrite block_scan_gen. cbn [bind]. f_equal.
      destruct (pad_block d1 _ x L1 (proj1 E1) (visited_in d1 b0 x H1 V1)) as (xb & A1 & A2 & A3).
      destruct (pad_block d2 _ y L2 (proj1 E2) (visited_in d2 b1 y H2 V2)) as (yb & B1 & B2 & B3).
      exact (total_nan _ _ xb yb x y A1 B1 A2 B2 A3 B3 N).
    Qed.
  End Mean.
End Nan.
