(** * Recombination in floating point: proofs *)
From Coq Require Import List ZArith Bool Reals Lia Lra.
From Coq Require Import Floats.SpecFloat.
From Flocq Require Import Core.Core IEEE754.BinarySingleNaN.
From Verif Require Import Num Jax RSum JaxFacts SumSpec Float DataModel RecModel BenchSized.
Import ListNotations.
Open Scope nat_scope.

Section Rec.
  Context (prec emax : Z) {Hprec : Prec_gt_0 prec} {Hmax : Prec_lt_emax prec emax} {Sm : SumOrder prec emax}.
  Notation flt := (binary_float prec emax).
  Notation O := (FOpsIEEE prec emax).
  Notation zero := (B754_zero false : flt).
  Definition fin (v : flt) : Prop := is_finite v = true.
  Definition isz (v : flt) : Prop := exists s, v = B754_zero s.
  (** zero or NaN *)
  Definition zn (v : flt) : Prop := isz v \/ v = B754_nan.

  Lemma sub_fin (a b : flt) : fin (Bminus mode_NE a b) -> fin a /\ fin b.
  Proof using. unfold fin. destruct a as [[]|[]| |[] ? ? ?], b as [[]|[]| |[] ? ? ?]; cbn; intros H; try discriminate H; auto. Qed.
  Lemma mul_fin (a b : flt) : fin (Bmult mode_NE a b) -> fin a /\ fin b.
  Proof using. unfold fin. destruct a as [[]|[]| |[] ? ? ?], b as [[]|[]| |[] ? ? ?]; cbn; intros H; try discriminate H; auto. Qed.
  Lemma div_fin (a b : flt) : fin (Bdiv mode_NE a b) -> fin a.
  Proof using. unfold fin. destruct a as [[]|[]| |[] ? ? ?], b as [[]|[]| |[] ? ? ?]; cbn; intros H; try discriminate H; auto. Qed.
  Lemma sub_zz (a b : flt) : isz a -> isz b -> isz (Bminus mode_NE a b).
  Proof using. intros [s ->] [t ->]. destruct s, t; cbn; eexists; reflexivity. Qed.
  Lemma mul_z (a b : flt) : fin a -> isz b -> isz (Bmult mode_NE a b).
  Proof using. intros F [t ->]. destruct a as [[]|[]| |[] ? ? ?]; try discriminate F; cbn; eexists; reflexivity. Qed.
  Lemma mul_zn (a b : flt) : zn b -> zn (Bmult mode_NE a b).
  Proof using. intros [[t ->]| ->]; destruct a as [[]|[]| |[] ? ? ?]; first [right; reflexivity|left; cbn; eexists; reflexivity]. Qed.
  Lemma sub_zn (a b : flt) : zn a -> zn b -> zn (Bminus mode_NE a b).
  Proof using. intros [[t ->]| ->] [[u ->]| ->]; try (right; reflexivity). left. destruct t, u; cbn; eexists; reflexivity. Qed.
  Lemma div_zn (a b : flt) : zn a -> zn (Bdiv mode_NE a b).
  Proof using. intros [[t ->]| ->]; destruct b as [[]|[]| |[] ? ? ?]; first [right; reflexivity|left; cbn; eexists; reflexivity]. Qed.
  Lemma gt0_nz (v : flt) : fgt0 O v = true -> ~ zn v.
  Proof using. unfold fgt0. cbn [fltb f0 FOpsIEEE]. intros H [[t ->]| ->]; [destruct t|]; discriminate H. Qed.
  Lemma isz_fin v : isz v -> fin v.
  Proof using. intros [s ->]. reflexivity. Qed.
  Lemma isz_feqb v : isz v -> feqb O v (f0 O) = true.
  Proof using. intros [[] ->]; reflexivity. Qed.

  Section Step.
    Variable n : nat.
    Definition shaped (st : list flt * list (list flt)) : Prop := length (fst st) = n /\ Forall (fun r => length r = n) (snd st).
    Definition allfin (w : list flt) : Prop := Forall fin w.
    Definition at0 (w : list flt) j := nth j w zero.
    (** the positions [Z] have been eliminated *)
    Definition gone (Z : list nat) (st : list flt * list (list flt)) : Prop :=
      forall j, In j Z -> isz (at0 (fst st) j) /\ Forall (fun r => zn (at0 r j)) (snd st).

    Section One.
      Variables (i : nat) (w : list flt) (basis : list (list flt)).
      Hypothesis SH : shaped (w, basis).
      Hypothesis Hi : i < length basis.
      Hypothesis Hn : 2 <= n.
      Let v := nth i basis [].
      Let cond := map2 (fun a b => if fgt0 O b then fdiv O a b else finf O) w v.
      Let k := argmin O cond.
      Let alpha := nth k cond (f0 O).
      Lemma Lv : length v = n.
      Proof using SH Hi Hn. destruct SH as [_ F]. cbn [snd] in F. rewrite Forall_forall in F. apply F. unfold v. now apply nth_In. Qed.
      Lemma Lcond : length cond = n.
      Proof using SH Hi Hn. unfold cond. rewrite map2_length, Lv. destruct SH as [L _]. cbn [fst] in L. lia. Qed.
      Lemma Hk : k < n.
      Proof using SH Hi Hn. rewrite <- Lcond. apply argmin_lt. intros E. pose proof Lcond as L. rewrite E in L. cbn in L. lia. Qed.
      Lemma alpha_eq : alpha = if fgt0 O (at0 v k) then Bdiv mode_NE (at0 w k) (at0 v k) else B754_infinity false.
      Proof using SH Hi Hn.
        pose proof Hk. pose proof Lv. destruct SH as [L _]. cbn [fst] in L. unfold alpha, cond.
        rewrite (nth_map2 _ w v k zero zero (f0 O)) by lia. reflexivity.
      Qed.
      Lemma elim_eq : eliminate O i (w, basis) =
        (upd k zero (map2 (fun a b => Bminus mode_NE a (Bmult mode_NE alpha b)) w v),
         map (fun row => upd k zero (map2 (fun a b => Bminus mode_NE a (Bmult mode_NE (at0 row k) b)) row (map (fun b => Bdiv mode_NE b (at0 v k)) v))) basis).
      Proof using. reflexivity. Qed.
      Lemma shaped_step : shaped (eliminate O i (w, basis)).
      Proof using SH Hi Hn.
        rewrite elim_eq. destruct SH as [L F]. cbn [fst snd] in *. split; cbn [fst snd].
        - rewrite upd_length, map2_length, Lv. lia.
        - apply Forall_forall. intros r Hr. apply in_map_iff in Hr as (r0 & <- & Hr). rewrite upd_length, map2_length, map_length, Lv.
          rewrite Forall_forall in F. rewrite (F r0 Hr). lia.
      Qed.
      Lemma w_step j : j < n -> j <> k -> at0 (fst (eliminate O i (w, basis))) j = Bminus mode_NE (at0 w j) (Bmult mode_NE alpha (at0 v j)).
      Proof using SH Hi Hn.
        intros Hj NE. rewrite elim_eq. cbn [fst]. unfold at0 at 1. rewrite nth_upd_neq by auto. destruct SH as [L _]. cbn [fst] in L.
        rewrite (nth_map2 _ w v j zero zero zero) by (rewrite ?Lv; lia). reflexivity.
      Qed.
      Lemma w_k : at0 (fst (eliminate O i (w, basis))) k = zero.
      Proof using SH Hi Hn.
        rewrite elim_eq. cbn [fst]. unfold at0. apply nth_upd_eq. pose proof Hk. destruct SH as [L _]. cbn [fst] in L. rewrite map2_length, Lv. lia.
      Qed.
      Lemma other : exists j, j < n /\ j <> k.
      Proof using Hn. clear - Hn. destruct (Nat.eq_dec k 0); [exists 1|exists 0]; lia. Qed.
      Lemma nth_fin (l : list flt) j : allfin l -> fin (at0 l j).
      Proof using. intros F. unfold at0. destruct (nth_in_or_default j l zero) as [I| ->]; [|reflexivity]. unfold allfin in F. rewrite Forall_forall in F. auto. Qed.
      (** a finite result comes from a finite step length and from finite weights *)
      Lemma back : allfin (fst (eliminate O i (w, basis))) -> fin alpha /\ fgt0 O (at0 v k) = true /\ allfin w /\ forall j, j < n -> j <> k -> fin (at0 v j).
      Proof using SH Hi Hn.
        intros F. assert (A : fin alpha).
        { destruct other as (j & Hj & NE). pose proof (nth_fin _ j F) as FJ. rewrite w_step in FJ by auto. apply sub_fin in FJ as [_ FJ]. now apply mul_fin in FJ as [FJ _]. }
        split; auto. rewrite alpha_eq in A. destruct (fgt0 O (at0 v k)) eqn:G; [|discriminate A]. split; auto. split.
        - apply Forall_forall. intros x Hx. apply In_nth with (d := zero) in Hx as (j & Hj & <-). destruct SH as [L _]. cbn [fst] in L.
          destruct (Nat.eq_dec j k) as [->|NE]; [now apply div_fin in A|]. pose proof (nth_fin _ j F) as FJ. rewrite w_step in FJ by (auto; lia).
          now apply sub_fin in FJ.
        - intros j Hj NE. pose proof (nth_fin _ j F) as FJ. rewrite w_step in FJ by (auto; lia). apply sub_fin in FJ as [_ FJ]. now apply mul_fin in FJ.
      Qed.
      Lemma gone_step Z : (forall j, In j Z -> j < n) -> gone Z (w, basis) -> allfin (fst (eliminate O i (w, basis))) ->
        ~ In k Z /\ gone (k :: Z) (eliminate O i (w, basis)).
      Proof using SH Hi Hn.
        intros R G F. destruct (back F) as (FA & GT & FW & FV).
        assert (ROW : forall j, In j Z -> zn (at0 v j)).
        { intros j Hj. destruct (G j Hj) as [_ B]. cbn [snd] in B. rewrite Forall_forall in B. apply B. unfold v. now apply nth_In. }
        assert (NK : ~ In k Z). { intros I. exact (gt0_nz _ GT (ROW k I)). }
        split; auto. intros j [<-|Hj].
        - split; [rewrite w_k; eexists; reflexivity|]. rewrite elim_eq. cbn [snd]. apply Forall_forall. intros r Hr. apply in_map_iff in Hr as (r0 & <- & Hr).
          pose proof Hk. destruct SH as [_ FB]. cbn [snd] in FB. rewrite Forall_forall in FB. unfold at0 at 1. rewrite nth_upd_eq.
          + left. eexists. reflexivity.
          + rewrite map2_length, map_length, Lv, (FB r0 Hr). lia.
        - assert (NE : j <> k) by (intros ->; auto). pose proof (R j Hj) as Lj. destruct (G j Hj) as [W B]. cbn [fst snd] in W, B. split.
          + rewrite w_step by auto. apply sub_zz; auto. apply mul_z; auto. destruct (ROW j Hj) as [Z0|E]; auto. specialize (FV j Lj NE). rewrite E in FV. discriminate FV.
          + rewrite elim_eq. cbn [snd]. apply Forall_forall. intros r Hr. apply in_map_iff in Hr as (r0 & <- & Hr).
            destruct SH as [_ FB]. cbn [snd] in FB. rewrite Forall_forall in FB. unfold at0 at 1. rewrite nth_upd_neq by auto.
            rewrite (nth_map2 _ r0 _ j zero zero zero) by (rewrite ?map_length, ?Lv, ?(FB r0 Hr); lia).
            rewrite Forall_forall in B. apply sub_zn; [exact (B r0 Hr)|]. apply mul_zn.
            match goal with |- zn (nth j (map ?f v) ?d) => rewrite (nth_indep (map f v) d (f zero)) by (rewrite map_length, Lv; lia); rewrite (map_nth f) end. apply div_zn. exact (ROW j Hj).
      Qed.
    End One.

    Lemma run w basis rank : length w = n -> Forall (fun r => length r = n) basis -> rank <= length basis -> 2 <= n ->
      let st := fori rank (eliminate O) (w, basis) in
      (shaped st /\ length (snd st) = length basis) /\
      (allfin (fst st) -> exists Z, NoDup Z /\ length Z = rank /\ (forall j, In j Z -> j < n) /\ gone Z st).
    Proof using.
      intros L F. induction rank as [|r IH]; intros Hr Hn st.
      - split; [split; [split; auto|reflexivity]|]. intros _. exists []. split; [constructor|]. split; [reflexivity|]. split; intros j [].
      - destruct IH as [[S LB] IH]; [lia|auto|]. unfold st in *. clear st. rewrite fori_S. destruct (fori r (eliminate O) (w, basis)) as [w1 b1]. cbn [snd] in LB.
        assert (Hi : r < length b1) by lia. split; [split; [now apply shaped_step|]|].
        + rewrite elim_eq. cbn [snd]. now rewrite map_length.
        + intros FA. destruct (back r w1 b1 S Hi Hn FA) as (_ & _ & FW & _). destruct (IH FW) as (Z & N & LZ & RZ & GZ).
          destruct (gone_step r w1 b1 S Hi Hn Z RZ GZ FA) as [NK G]. eexists. split; [constructor; [exact NK|exact N]|]. split; [cbn; lia|]. split; [|exact G].
          intros j [<-|Hj]; auto. now apply Hk.
    Qed.
  End Step.

  Lemma run_shape n w basis rank : length w = n -> Forall (fun r => length r = n) basis -> rank <= length basis ->
    let st := fori rank (eliminate O) (w, basis) in length (fst st) = n /\ Forall (fun r => length r = n) (snd st) /\ length (snd st) = length basis.
  Proof using.
    intros L F. induction rank as [|r IH]; intros Hr st; [auto|]. unfold st. clear st. rewrite fori_S. specialize (IH ltac:(lia)). cbn [fst snd] in IH.
    destruct (fori r (eliminate O) (w, basis)) as [w1 b1]. cbn [fst snd] in IH. destruct IH as (L1 & F1 & B1).
    assert (LV : length (nth r b1 []) = n) by (rewrite Forall_forall in F1; apply F1, nth_In; lia). rewrite elim_eq. cbn [fst snd].
    rewrite upd_length, map2_length, map_length. split; [lia|]. split; [|exact B1]. apply Forall_forall. intros x Hx. apply in_map_iff in Hx as (y & <- & Hy).
    rewrite upd_length, map2_length, map_length. rewrite Forall_forall in F1. rewrite (F1 y Hy). lia.
  Qed.
  Lemma positions_count l i : length (positions l i) = mask_count l.
  Proof using. clear. unfold mask_count. revert i. induction l as [|b l IH]; intros i; cbn [positions filter]; auto. rewrite app_length, IH. destruct b; reflexivity. Qed.
  Lemma positions_in l : forall i j, In j (positions l i) -> i <= j < i + length l /\ nth (j - i) l false = true.
  Proof using.
    clear. induction l as [|b l IH]; intros i j; cbn [positions length]; [intros []|]. intros H. apply in_app_or in H as [H|H].
    - destruct b; [|destruct H]. destruct H as [<-|[]]. replace (i - i) with 0 by lia. split; [lia|reflexivity].
    - destruct (IH _ _ H) as [A B]. split; [lia|]. replace (j - i) with (S (j - S i)) by lia. exact B.
  Qed.
  Lemma positions_nodup l : forall i, NoDup (positions l i).
  Proof using.
    clear. induction l as [|b l IH]; intros i; cbn [positions]; [constructor|]. destruct b; cbn [app]; auto. constructor; auto. intros H. apply positions_in in H. lia.
  Qed.
  (** the number of non-zero weights *)
  Lemma sparse w basis rank n : length w = n -> Forall (fun r => length r = n) basis -> rank <= length basis -> 2 <= n ->
    let out := eliminate_all O w basis rank in
    length out = n /\ (Forall fin out -> mask_count (map (fun v => negb (feqb O v (f0 O))) out) + rank <= n).
  Proof using.
    intros L F Hr Hn out. destruct (run n w basis rank L F Hr Hn) as [[S _] R]. fold out in R. change (fst (fori rank (eliminate O) (w, basis))) with out in *.
    destruct S as [LS _]. change (length out = n) in LS. split; auto. intros FA. destruct (R FA) as (Z & N & LZ & RZ & GZ).
    rewrite <- (positions_count _ 0), <- LZ, <- app_length, <- (seq_length n 0). apply NoDup_incl_length.
    - assert (D : forall j, In j (positions (map (fun v => negb (feqb O v (f0 O))) out) 0) -> ~ In j Z).
      { intros j Hj I. apply positions_in in Hj as [Hj E]. rewrite map_length in Hj. rewrite Nat.sub_0_r in E.
        rewrite (nth_indep _ false (negb (feqb O zero (f0 O)))) in E by (rewrite map_length; lia). rewrite (map_nth (fun v => negb (feqb O v (f0 O)))) in E.
        destruct (GZ j I) as [W _]. cbn [fst] in W. change (fst (fori rank (eliminate O) (w, basis))) with out in W. unfold at0 in W. now rewrite (isz_feqb _ W) in E. }
      pose proof (positions_nodup (map (fun v => negb (feqb O v (f0 O))) out) 0) as NP. revert D NP. generalize (positions (map (fun v => negb (feqb O v (f0 O))) out) 0) as A.
      intros A D NP. induction NP as [|a A NI NP IH]; cbn [app]; auto. constructor; [|apply IH; intros j Hj; apply D; now right].
      intros H. apply in_app_or in H as [H|H]; [auto|]. exact (D a (or_introl eq_refl) H).
    - intros j H. apply in_seq. apply in_app_or in H as [H|H]; [|specialize (RZ j H); lia]. apply positions_in in H as [H _]. rewrite map_length in H. lia.
  Qed.
End Rec.
