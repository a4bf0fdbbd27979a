(** * Properties C17-C22, C44 and the solver part of C04: KernelHerding and SteinThinning

    Notation used below: the data set has feature rows [xs : list P], real
    weights [dw], and no supervision unless stated; the kernel is a real-valued
    function [k]; [ord i] is the (unspecified) order in which the scatter of loop
    iteration [i] applies its updates: every statement holds for all of them. *)
From Coq Require Import List ZArith QArith Reals Lra Lia Bool Permutation.
From Verif Require Import Num Jax RSum JaxFacts DataModel MeanModel MeanSpec GreedySpec GreedyModel.
From Verif Require Import DataMeanLemmas GreedyProofs GreedyProofs2 GreedyProofs3 GreedyProofs4 GreedyProofs5.
Import ListNotations.
Open Scope R_scope.

Notation kE k := (fun a b => Fin (k a b) : ER).
Notation unsup xs dw := (mkData xs (map Fin dw) None).

(** ** C17: size, range, weights, distinctness *)
Theorem C17_herding_reduce :
  forall P Y (p0 : P) (y0 : Y) (k : P -> P -> R) (m : nat) (unique : bool) (bs : bsarg)
         (ord : nat -> list nat) (xs : list P) (dw : list R) (st : option (list R)),
    length dw = length xs -> (1 <= m <= length xs)%nat ->
    (forall i, Permutation (ord i) (seq 0 m)) ->
    (1 <= npos dw)%nat -> (unique = true -> (m <= npos dw)%nat) ->
    (forall g, st = Some g -> length g = length xs) ->
    exists l g,
      herding_reduce EROps p0 y0 (mkHerding m (kE k) unique bs Greedy) ord (unsup xs dw)
        (option_map (map Fin) st)
      = Ok (mkCS (map Z.of_nat l) (repeat (Fin 1) m) (unsup xs dw), g) /\
      length l = m /\
      (forall i, In i l -> (i < length xs)%nat /\ 0 < nth i dw 0) /\
      (unique = true -> NoDup l).
Proof.
  intros. destruct (herding_reduce_outcome p0 y0 k m unique bs ord xs dw st) as [l [A [B [C [D _]]]]]; auto.
  eauto 10.
Qed.
Print Assumptions C17_herding_reduce.

(** refining any coreset, of any size and with any weights *)
Theorem C17_herding_refine :
  forall P Y (p0 : P) (y0 : Y) (k : P -> P -> R) (m : nat) (unique : bool) (bs : bsarg)
         (ord : nat -> list nat) (idx : list Z) (cw : list R) (xs : list P) (dw : list R)
         (st : option (list R)),
    length dw = length xs -> length cw = length idx -> (1 <= m)%nat ->
    (forall i, Permutation (ord i) (seq 0 (Nat.max (length idx) m))) ->
    (1 <= npos dw)%nat -> (unique = true -> (Nat.max (length idx) m <= npos dw)%nat) ->
    (forall g, st = Some g -> length g = length xs) ->
    exists l g,
      herding_refine EROps p0 y0 (mkHerding m (kE k) unique bs Greedy) ord
        (mkCS idx (map Fin cw) (unsup xs dw)) (option_map (map Fin) st)
      = Ok (mkCS (map Z.of_nat l) (repeat (Fin 1) m) (unsup xs dw), g) /\
      length l = m /\
      (forall i, In i l -> (i < length xs)%nat /\ 0 < nth i dw 0) /\
      (unique = true -> NoDup l).
Proof.
  intros. destruct (herding_refine_outcome p0 y0 k m unique bs ord idx cw xs dw st) as [l [A [B [C D]]]]; auto.
  eauto 10.
Qed.
Print Assumptions C17_herding_refine.
Example C17_hyps :
  exists (xs : list nat) (dw : list R) (ord : nat -> list nat),
    length dw = length xs /\ (1 <= 3 <= length xs)%nat /\
    (forall i, Permutation (ord i) (seq 0 3)) /\ (3 <= npos dw)%nat /\ (npos dw < length dw)%nat.
Proof.
  exists [5;6;7;8]%nat, [1; 0; 2; 1], (fun _ => seq 0 3).
  assert (E : npos [1;0;2;1] = 3%nat).
  { unfold npos. cbn [filter].
    destruct (Rlt_dec 0 1); [|lra]. destruct (Rlt_dec 0 0); [lra|]. destruct (Rlt_dec 0 2); [|lra]. reflexivity. }
  rewrite E. cbn [length]. repeat split; try lia. intros; reflexivity.
Qed.

(** probabilistic selection: the sampler returns a position of positive
    probability whenever the probabilities are finite, non-negative and not all
    zero ([choice_ok]); all data weights positive *)
Theorem C17_herding_probabilistic_partial :
  forall P Y (p0 : P) (y0 : Y) (k : P -> P -> R) (m : nat) (unique : bool) (bs : bsarg)
         (ord : nat -> list nat) (idx : list Z) (cw : list R) (xs : list P) (dw : list R)
         (st : option (list R)) (temp : R) (choice : nat -> list ER -> Z),
    length dw = length xs -> length cw = length idx -> (1 <= m)%nat ->
    (forall i, Permutation (ord i) (seq 0 (Nat.max (length idx) m))) ->
    (1 <= length xs)%nat -> (unique = true -> (Nat.max (length idx) m <= length xs)%nat) ->
    (forall g, st = Some g -> length g = length xs) ->
    (forall a, In a dw -> 0 < a) -> 0 < temp -> choice_ok choice ->
    exists l g,
      herding_refine EROps p0 y0 (mkHerding m (kE k) unique bs (Prob expE (Fin temp) choice)) ord
        (mkCS idx (map Fin cw) (unsup xs dw)) (option_map (map Fin) st)
      = Ok (mkCS (map Z.of_nat l) (repeat (Fin 1) m) (unsup xs dw), g) /\
      length l = m /\ (forall i, In i l -> (i < length xs)%nat) /\
      (unique = true -> NoDup l).
Proof.
  intros. destruct (herding_prob_outcome p0 y0 k m unique bs ord idx cw xs dw st temp choice) as [l [A [B [C D]]]]; auto.
  eauto 10.
Qed.
Print Assumptions C17_herding_probabilistic_partial.
(** a sampler meeting the contract: the position of the largest probability *)
Example C17_choice_ok : choice_ok (fun _ p => Z.of_nat (argmax EROps p)).
Proof.
  intros i p Hp [q [Hq Hq0]].
  assert (Hne : map Fin p <> []) by (destruct p; [destruct Hq|discriminate]).
  exists (argmax EROps (map Fin p)). split; [reflexivity|].
  destruct (ArgFacts.argmax_spec ROps ROps_laws (map Fin p) Hne) as [A [B _]].
  { apply Forall_forall. intros v Hv. apply in_map_iff in Hv. destruct Hv as [x [<- _]]. discriminate. }
  change (argmax (extOps ROps)) with (argmax EROps) in *.
  rewrite map_length in A. split; [assumption|].
  rewrite GreedyProofs.nth_map_Fin in B by assumption.
  apply (In_nth _ _ 0) in Hq. destruct Hq as [j [Hj Ej]].
  specialize (B j ltac:(now rewrite map_length)). rewrite GreedyProofs.nth_map_Fin in B by assumption.
  apply GreedyProofs2.eltb_fin_false in B. lra.
Qed.

(** Finding: with a zero-weight row, probabilistic selection hands the sampler
    probabilities that are all NaN, so nothing is known about the result. *)
Theorem C17_probabilistic_zero_weight_refuted :
  forall (dw cw : list R) (idx : list Z) (grm pen : list R) unique ord
         (temp : R) (choice : nat -> list ER -> Z) (i : nat) (size : Z) (z : nat),
    length grm = length dw -> length pen = length dw -> (z < length dw)%nat -> nth z dw 0 <= 0 ->
    (0 < size)%Z -> 0 < temp ->
    (forall p, (p < length idx)%nat -> nth p idx 0%Z <> Z.of_nat z) ->
    Forall (fun j => (0 <= j < Z.of_nat (length dw))%Z) idx ->
    (forall j, Permutation (ord j) (seq 0 (length idx))) ->
    herding_select EROps (Prob expE (Fin temp) choice) (map Fin grm) i
      (valid_penalty EROps unique (ord i) (map Fin dw) (map Fin cw) idx i (map Fin pen)) size
    = choice i (repeat NaN (length dw)).
Proof. exact @prob_zero_weight. Qed.
Print Assumptions C17_probabilistic_zero_weight_refuted.

Theorem C17_stein_refine :
  forall P Y (p0 : P) (y0 : Y) (k : P -> P -> R) (m : nat) (unique : bool) (bs : bsarg)
         (ord : nat -> list nat) (xs : list P) (dw : list R) (idx : list Z) (cw : list R),
    (1 <= length idx)%nat ->
    length dw = length xs -> length cw = length idx -> (1 <= m)%nat ->
    (forall i, Permutation (ord i) (seq 0 (Nat.max (length idx) m))) ->
    (1 <= npos dw)%nat -> (unique = true -> (Nat.max (length idx) m <= npos dw)%nat) ->
    exists l,
      stein_refine EROps p0 y0 (mkStein m (kE k) unique bs None) ord
        (mkCS idx (map Fin cw) (unsup xs dw))
      = Ok (mkCS (map Z.of_nat l) (repeat (Fin 1) m) (unsup xs dw)) /\
      length l = m /\
      (forall i, In i l -> (i < length xs)%nat /\ 0 < nth i dw 0) /\
      (unique = true -> NoDup l).
Proof.
  intros. exact (stein_refine_outcome p0 y0 k m unique bs None ord idx cw xs dw ltac:(assumption) ltac:(assumption)
    ltac:(assumption) ltac:(assumption) ltac:(assumption) ltac:(assumption) ltac:(assumption) I).
Qed.
Print Assumptions C17_stein_refine.

(** ** C18: the selection rule *)
(** Every selected point maximises, over the rows still allowed, the weighted
    kernel mean minus the running average kernel value to the points already
    chosen; ties go to the smallest index. *)
Theorem C18_herding_greedy :
  forall P Y (p0 : P) (y0 : Y) (k : P -> P -> R) (m : nat) (unique : bool) (bs : bsarg)
         (ord : nat -> list nat) (xs : list P) (dw : list R),
    length dw = length xs -> Rsum dw <> 0 -> (1 <= m <= length xs)%nat ->
    (forall i, Permutation (ord i) (seq 0 m)) ->
    (1 <= npos dw)%nat -> (unique = true -> (m <= npos dw)%nat) ->
    exists l g,
      herding_reduce EROps p0 y0 (mkHerding m (kE k) unique bs Greedy) ord (unsup xs dw) None
      = Ok (mkCS (map Z.of_nat l) (repeat (Fin 1) m) (unsup xs dw), g) /\
      length l = m /\
      greedy_argmax (candidate dw unique)
        (herding_score k (fun j => wavg (fun b => k (nth j xs p0) b) xs dw) (fun j => nth j xs p0)) l.
Proof. exact @herding_rule_fresh. Qed.
Print Assumptions C18_herding_greedy.
(** the rule determines the selection *)
Theorem C18_rule_deterministic :
  forall (w : list R) (unique : bool) (score : list nat -> nat -> R) (l l' : list nat),
    length l = length l' -> greedy_argmax (candidate w unique) score l ->
    greedy_argmax (candidate w unique) score l' -> l = l'.
Proof.
  intros w u s l l' HL. apply greedy_argmax_unique; auto. intros; reflexivity.
Qed.
Print Assumptions C18_rule_deterministic.
Example C18_concrete :
  let k := fun a b : Z => Fin (1 / (1 + inject_Z ((a - b) * (a - b))))%Q : EQ in
  exists g, herding_reduce EQOps 0%Z 0%nat (mkHerding 3 k true (BOne None) Greedy) (fun _ => seq 0 3)
    (mkData [0;1;2;9;3]%Z [Fin 1; Fin 1; Fin 1; Fin 2; Fin 0]%Q None) None
  = Ok (mkCS [3;1;2]%Z [Fin 1; Fin 1; Fin 1]%Q (mkData [0;1;2;9;3]%Z [Fin 1; Fin 1; Fin 1; Fin 2; Fin 0]%Q None), g).
Proof. eexists. vm_compute. reflexivity. Qed.

(** ** C19: refinement never worsens a full-size coreset *)
Theorem C19_refine_never_worse :
  forall P Y (p0 : P) (y0 : Y) (k : P -> P -> R) (l0 : list nat) (c : R) (xs : list P) (dw : list R)
         (unique : bool) (bs : bsarg) (ord : nat -> list nat),
    (forall a b, k a b = k b a) -> (forall a b, In a xs -> In b xs -> k a a = k b b) ->
    length dw = length xs -> Rsum dw <> 0 ->
    (1 <= length l0)%nat -> 0 < c ->
    (forall i, Permutation (ord i) (seq 0 (length l0))) ->
    (forall i, In i l0 -> (i < length xs)%nat /\ 0 < nth i dw 0) ->
    (unique = true -> NoDup l0) ->
    exists l g,
      herding_refine EROps p0 y0 (mkHerding (length l0) (kE k) unique bs Greedy) ord
        (mkCS (map Z.of_nat l0) (map Fin (repeat c (length l0))) (unsup xs dw)) None
      = Ok (mkCS (map Z.of_nat l) (repeat (Fin 1) (length l0)) (unsup xs dw), g) /\
      length l = length l0 /\
      mmd2 k xs dw (map (fun j => nth j xs p0) l) (repeat 1 (length l0))
      <= mmd2 k xs dw (map (fun j => nth j xs p0) l0) (repeat c (length l0)).
Proof.
  intros. destruct (herding_refine_mono p0 y0 k l0 c xs dw unique bs ord) as [l [A [B [C [D E]]]]]; auto.
  eauto 10.
Qed.
Print Assumptions C19_refine_never_worse.

(** Each further iteration of [reduce_iterative] is at least as good as the last. *)
Theorem C19_iterations_never_worse :
  forall P Y (p0 : P) (y0 : Y) (k : P -> P -> R) (m : nat) (unique : bool) (bs : bsarg)
         (ords : nat -> nat -> list nat) (modes : nat -> hmode) (xs : list P) (dw : list R) (N : nat),
    (forall a b, k a b = k b a) -> (forall a b, In a xs -> In b xs -> k a a = k b b) ->
    length dw = length xs -> Rsum dw <> 0 -> (1 <= m <= length xs)%nat ->
    (forall j i, Permutation (ords j i) (seq 0 m)) ->
    (1 <= npos dw)%nat -> (unique = true -> (m <= npos dw)%nat) ->
    (forall i, modes i = Greedy) ->
    exists l l' g,
      let h := mkHerding m (kE k) unique bs Greedy in
      herding_reduce_iterative EROps p0 y0 h modes ords (unsup xs dw) None (S N)
      = Ok (mkCS (map Z.of_nat l) (repeat (Fin 1) m) (unsup xs dw), g) /\
      herding_reduce_iterative EROps p0 y0 h modes ords (unsup xs dw) None (S (S N))
      = Ok (mkCS (map Z.of_nat l') (repeat (Fin 1) m) (unsup xs dw), g) /\
      length l = m /\ (forall i, In i l -> (i < length xs)%nat /\ 0 < nth i dw 0) /\
      (unique = true -> NoDup l) /\
      mmd2 k xs dw (map (fun j => nth j xs p0) l') (repeat 1 m)
      <= mmd2 k xs dw (map (fun j => nth j xs p0) l) (repeat 1 m).
Proof. exact @reduce_iterative_mono. Qed.
Print Assumptions C19_iterations_never_worse.
Example C19_hyps :
  let k := fun a b : R => exp (- (a - b) * (a - b)) in
  (forall a b, k a b = k b a) /\ (forall a b, k a a = k b b) /\ Rsum [1;2;1] <> 0 /\ NoDup [2;0]%nat.
Proof.
  cbn. repeat split; intros.
  - f_equal. ring.
  - f_equal. ring.
  - lra.
  - repeat constructor; cbn; intuition discriminate.
Qed.

(** ** C20: zero-weight rows appended to the data do not change the selection *)
Theorem C20_herding_padding :
  forall P Y (p0 : P) (y0 : Y) (k : P -> P -> R) (m : nat) (unique : bool) (bs bs' : bsarg)
         (ord ord' : nat -> list nat) (xs : list P) (dw : list R) (zs : list P),
    length dw = length xs -> (1 <= m <= length xs)%nat ->
    (forall i, Permutation (ord i) (seq 0 m)) -> (forall i, Permutation (ord' i) (seq 0 m)) ->
    (1 <= npos dw)%nat -> (unique = true -> (m <= npos dw)%nat) ->
    exists l g g',
      herding_reduce EROps p0 y0 (mkHerding m (kE k) unique bs Greedy) ord (unsup xs dw) None
      = Ok (mkCS (map Z.of_nat l) (repeat (Fin 1) m) (unsup xs dw), g) /\
      herding_reduce EROps p0 y0 (mkHerding m (kE k) unique bs' Greedy) ord'
        (unsup (xs ++ zs) (dw ++ repeat 0 (length zs))) None
      = Ok (mkCS (map Z.of_nat l) (repeat (Fin 1) m) (unsup (xs ++ zs) (dw ++ repeat 0 (length zs))), g').
Proof. exact @herding_padding. Qed.
Print Assumptions C20_herding_padding.
Example C20_hyps : (1 <= npos [1%R;2%R])%nat /\ npos ([1;2] ++ repeat 0 3) = 2%nat.
Proof.
  assert (E : npos [1%R;2%R] = 2%nat).
  { unfold npos. cbn [filter]. destruct (Rlt_dec 0 1); [|lra]. destruct (Rlt_dec 0 2); [|lra]. reflexivity. }
  rewrite npos_pad, E. auto.
Qed.

(** Finding: the probabilistic mode of KernelHerding is not padding invariant.  On padded
    data the sampler is given NaN for every row, whatever the data. *)
Theorem C20_probabilistic_padding_refuted :
  forall P Y (p0 : P) (y0 : Y) (k : P -> P -> R) (unique : bool) (bs : bsarg) (ord : nat -> list nat)
         (temp : R) (choice : nat -> list ER -> Z) (xs : list P) (dw : list R) (zs : list P),
    length dw = length xs -> (1 <= npos dw)%nat -> zs <> [] -> 0 < temp ->
    (forall i, Permutation (ord i) (seq 0 1)) ->
    let padded := unsup (xs ++ zs) (dw ++ repeat 0 (length zs)) in
    exists row_mean,
      herding_reduce EROps p0 y0 (mkHerding 1 (kE k) unique bs (Prob expE (Fin temp) choice)) ord padded None
      = Ok (mkCS [choice 0%nat (repeat NaN (length xs + length zs))] [Fin 1] padded, row_mean).
Proof.
  intros P Y p0 y0 k unique bs ord temp choice xs dw zs HL Hp Hz Ht HO padded.
  assert (HL' : length (dw ++ repeat 0 (length zs)) = length (xs ++ zs)) by (rewrite !app_length, repeat_length; lia).
  assert (Hx : xs <> []) by (now apply (npos_nonempty xs dw)).
  assert (Hn : (1 <= length xs)%nat) by (destruct xs; [congruence|cbn; lia]).
  assert (Hq : (1 <= length zs)%nat) by (destruct zs; [congruence|cbn; lia]).
  assert (Hp' : (1 <= npos (dw ++ repeat 0%R (length zs)))%nat) by (now rewrite npos_pad).
  exists (map Fin (grm_of k (xs ++ zs) (dw ++ repeat 0 (length zs)))).
  unfold herding_reduce, padded. cbn [h_size]. rewrite initial_ok by (rewrite app_length; lia). cbn [bind].
  pose proof (herding_refine_unfold p0 y0 k 1 unique bs (Prob expE (Fin temp) choice) ord (repeat 0%Z 1) (repeat 0 1) (xs ++ zs) (dw ++ repeat 0 (length zs)) None HL' Hp') as U.
  cbn [option_map used_grm] in U. rewrite U. clear U.
  rewrite greedy_selection_unfold; [|intro E; apply app_eq_nil in E; tauto|exact HL'|reflexivity|lia].
  set (W := pcw (repeat 0 1) (repeat 0%Z 1) 1). set (I := pidx (repeat 0%Z 1) 1).
  set (pen := ipen p0 k (xs ++ zs) W I).
  assert (EW : W = [0]) by reflexivity. assert (EI : I = [0%Z]) by reflexivity.
  assert (NW : npos W = 0%nat) by (rewrite EW; apply (npos_zero 1)).
  assert (LP : length pen = length (dw ++ repeat 0 (length zs))) by (unfold pen, ipen; rewrite map_length; now symmetry).
  set (sel := herding_select _ _ _).
  assert (C : gchoice p0 k (xs ++ zs) (dw ++ repeat 0 (length zs)) W sel unique ord 0 (gs0 I pen (Z.of_nat (npos W)))
              = choice 0%nat (repeat NaN (length xs + length zs))).
  { unfold gchoice, gvalid, pen1, size1, gs0. cbn [g_idx g_pen g_size].
    assert (F : fgt0 EROps (nth 0 (map Fin W) (f0 EROps)) = false).
    { rewrite EW. cbn [map nth]. destruct (fgt0 EROps (Fin 0)) eqn:E; [apply fgt0_fin in E; lra|reflexivity]. }
    rewrite F, NW. unfold sel.
    rewrite (prob_zero_weight (dw ++ repeat 0 (length zs)) W I _ pen unique ord temp choice 0 _ (length dw)).
    - now rewrite HL', app_length.
    - unfold grm_of. rewrite map_length. now symmetry.
    - exact LP.
    - rewrite app_length, repeat_length. lia.
    - rewrite app_nth2, Nat.sub_diag by lia. destruct zs; [congruence|]. cbn. lra.
    - reflexivity.
    - exact Ht.
    - rewrite EI. intros [|q] Hq'; cbn in *; lia.
    - rewrite EI. constructor; [|constructor]. rewrite app_length. lia.
    - rewrite EI. exact HO. }
  cbn [bind]. unfold gst. rewrite fori_S. change (fori 0 ?f ?x) with x. rewrite gbody_unfold, C. cbn [g_idx].
  rewrite EI. cbn [upd firstn length repeat gs0 g_idx]. reflexivity.
Qed.
Print Assumptions C20_probabilistic_padding_refuted.

(** ** C22: SteinThinning's selection rule *)
(** [lam], [logpdf], [lapl]: regularisation weight, log density estimate and
    Laplacian term, given by their values on this data set. *)
Theorem C22_stein_greedy_partial :
  forall P Y (p0 : P) (y0 : Y) (k : P -> P -> R) (m : nat) (unique : bool) (bs : bsarg)
         (ord : nat -> list nat) (xs : list P) (dw : list R)
         (lam : option R) (logpdf : list P -> list ER -> list ER) (lapl : list P -> list ER) (lp lap : list R),
    length dw = length xs -> (1 <= m <= length xs)%nat ->
    (forall i, Permutation (ord i) (seq 0 m)) ->
    (1 <= npos dw)%nat -> (unique = true -> (m <= npos dw)%nat) ->
    logpdf xs (map Fin dw) = map Fin lp -> length lp = length xs ->
    lapl xs = map Fin lap -> length lap = length xs ->
    exists l,
      stein_reduce EROps p0 y0
        (mkStein m (kE k) unique bs (Some (option_map Fin lam, logpdf, lapl))) ord (unsup xs dw)
      = Ok (mkCS (map Z.of_nat l) (repeat (Fin 1) m) (unsup xs dw)) /\
      length l = m /\
      (forall i, In i l -> (i < length xs)%nat /\ 0 < nth i dw 0) /\
      (unique = true -> NoDup l) /\
      greedy_argmax (candidate dw unique)
        (stein_score k (fun j => nth j lap 0)
           (fun j => (match lam with Some l => l | None => 1 / INR m end) * nth j lp 0)
           (fun j => nth j xs p0)) l.
Proof.
  intros. rewrite (stein_reduce_env p0 y0 k m unique bs ord xs dw lam logpdf lapl lp lap) by assumption.
  refine (stein_reduce_outcome p0 y0 k m unique bs (Some (lam, fun _ _ => lp, fun _ => lap)) ord xs dw _ _ _ _ _ _);
    try assumption. split; assumption.
Qed.
Print Assumptions C22_stein_greedy_partial.
Theorem C22_stein_greedy_unregularised_partial :
  forall P Y (p0 : P) (y0 : Y) (k : P -> P -> R) (m : nat) (unique : bool) (bs : bsarg)
         (ord : nat -> list nat) (xs : list P) (dw : list R),
    length dw = length xs -> (1 <= m <= length xs)%nat ->
    (forall i, Permutation (ord i) (seq 0 m)) ->
    (1 <= npos dw)%nat -> (unique = true -> (m <= npos dw)%nat) ->
    exists l,
      stein_reduce EROps p0 y0 (mkStein m (kE k) unique bs None) ord (unsup xs dw)
      = Ok (mkCS (map Z.of_nat l) (repeat (Fin 1) m) (unsup xs dw)) /\
      length l = m /\
      (forall i, In i l -> (i < length xs)%nat /\ 0 < nth i dw 0) /\
      (unique = true -> NoDup l) /\
      greedy_argmax (candidate dw unique)
        (stein_score k (fun _ => 0) (fun _ => 0) (fun j => nth j xs p0)) l.
Proof.
  intros. exact (stein_reduce_outcome p0 y0 k m unique bs None ord xs dw ltac:(assumption) ltac:(assumption)
    ltac:(assumption) ltac:(assumption) ltac:(assumption) I).
Qed.
Print Assumptions C22_stein_greedy_unregularised_partial.
(** refining a full-size coreset does not increase its kernel Stein discrepancy
    (the mean of [k] over pairs of coreset points) *)
Theorem C22_stein_refine_never_worse_partial :
  forall P Y (p0 : P) (y0 : Y) (k : P -> P -> R) (l0 : list nat) (c : R) (xs : list P) (dw : list R)
         (unique : bool) (bs : bsarg) (ord : nat -> list nat),
    (forall a b, k a b = k b a) ->
    length dw = length xs -> (1 <= length l0)%nat -> 0 < c ->
    (forall i, Permutation (ord i) (seq 0 (length l0))) ->
    (forall i, In i l0 -> (i < length xs)%nat /\ 0 < nth i dw 0) ->
    (unique = true -> NoDup l0) ->
    exists l,
      stein_refine EROps p0 y0 (mkStein (length l0) (kE k) unique bs None) ord
        (mkCS (map Z.of_nat l0) (map Fin (repeat c (length l0))) (unsup xs dw))
      = Ok (mkCS (map Z.of_nat l) (repeat (Fin 1) (length l0)) (unsup xs dw)) /\
      length l = length l0 /\
      (forall i, In i l -> (i < length xs)%nat /\ 0 < nth i dw 0) /\
      (unique = true -> NoDup l) /\
      wavg (fun a => wavg (fun b => k a b) (map (fun j => nth j xs p0) l) (repeat 1 (length l0)))
           (map (fun j => nth j xs p0) l) (repeat 1 (length l0))
      <= wavg (fun a => wavg (fun b => k a b) (map (fun j => nth j xs p0) l0) (repeat c (length l0)))
              (map (fun j => nth j xs p0) l0) (repeat c (length l0)).
Proof. exact @stein_refine_mono. Qed.
Print Assumptions C22_stein_refine_never_worse_partial.
Example C22_concrete :
  let k := fun a b : Z => Fin (inject_Z (a * b) + 1 / (1 + inject_Z ((a - b) * (a - b))))%Q : EQ in
  let d := mkData [3;1;-1;2;0]%Z [Fin 1; Fin 1; Fin 1; Fin 1; Fin 0]%Q None in
  stein_reduce EQOps 0%Z 0%nat (mkStein 3 k true (BOne None) None) (fun _ => seq 0 3) d
  = Ok (mkCS [1;2;3]%Z [Fin 1; Fin 1; Fin 1]%Q d).
Proof. vm_compute. reflexivity. Qed.
(** zero-weight rows do not change an unregularised selection, nor a regularised
    one whose terms on the real rows do not depend on the padding *)
Theorem C20_stein_unregularised_padding_partial :
  forall P Y (p0 : P) (y0 : Y) (k : P -> P -> R) (m : nat) (unique : bool) (bs bs' : bsarg)
         (ord ord' : nat -> list nat) (xs : list P) (dw : list R) (zs : list P),
    length dw = length xs -> (1 <= m <= length xs)%nat ->
    (forall i, Permutation (ord i) (seq 0 m)) -> (forall i, Permutation (ord' i) (seq 0 m)) ->
    (1 <= npos dw)%nat -> (unique = true -> (m <= npos dw)%nat) ->
    exists l,
      stein_reduce EROps p0 y0 (mkStein m (kE k) unique bs None) ord (unsup xs dw)
      = Ok (mkCS (map Z.of_nat l) (repeat (Fin 1) m) (unsup xs dw)) /\
      stein_reduce EROps p0 y0 (mkStein m (kE k) unique bs' None) ord'
        (unsup (xs ++ zs) (dw ++ repeat 0 (length zs)))
      = Ok (mkCS (map Z.of_nat l) (repeat (Fin 1) m) (unsup (xs ++ zs) (dw ++ repeat 0 (length zs)))).
Proof.
  intros. exact (stein_padding p0 y0 k m unique bs bs' None ord ord' xs dw zs ltac:(assumption) ltac:(assumption)
    ltac:(assumption) ltac:(assumption) ltac:(assumption) ltac:(assumption) I I I).
Qed.
Print Assumptions C20_stein_unregularised_padding_partial.

(** ** C21: solver state *)
(** The state returned by a run on a data set can be given to any later run on the
    same data set (reduce or refine, any size, any options, same kernel). *)
Theorem C21_herding_state_reuse :
  forall P Y (p0 : P) (y0 : Y) (h h' : herding) (ord ord' : nat -> list nat) (d : Data P Y ER)
         (c c' : Coresubset P Y ER) (g : list ER),
    h_kernel h = h_kernel h' -> h_bs h = h_bs h' -> c_pre c' = d ->
    herding_reduce EROps p0 y0 h ord d None = Ok (c, g) ->
    herding_refine EROps p0 y0 h' ord' c' (Some g) = herding_refine EROps p0 y0 h' ord' c' None.
Proof. intros. eapply state_is_gramian_mean; eassumption. Qed.
Print Assumptions C21_herding_state_reuse.

(** ** C04 for these solvers *)
Theorem C04_greedy_solvers_guard :
  forall V (O : FOps V) P Y (p0 : P) (y0 : Y) h s ord (d : Data P Y V) st,
    ((d_len d < h_size h)%nat -> herding_reduce O p0 y0 h ord d st = Err ValueError) /\
    ((d_len d < s_size s)%nat -> stein_reduce O p0 y0 s ord d = Err ValueError).
Proof. intros. split; [apply herding_too_large|apply stein_too_large]. Qed.
Print Assumptions C04_greedy_solvers_guard.
(** Finding: [refine] with a solver whose size exceeds the data set is accepted,
    although no coreset may be larger than its data; with [unique=True] it also
    repeats a point. *)
Theorem C04_refine_guard_refuted :
  exists (d : Data Z unit EQ) (c c' : Coresubset Z unit EQ) g,
    cs_init EQOps 0%Z tt (IData [0;1]%Z [Fin 1; Fin 1]%Q) (AData d) = Ok c /\
    herding_refine EQOps 0%Z tt
      (mkHerding 3 (fun a b => Fin (if Z.eqb a b then 1 else 1 # 2)%Q) true (BOne None) Greedy)
      (fun _ => seq 0 3) c None = Ok (c', g) /\
    (d_len (c_pre c') < length (c_idx c'))%nat /\ ~ NoDup (c_idx c').
Proof.
  exists (mkData [4;7]%Z [Fin 1; Fin 1]%Q None). do 3 eexists.
  split; [reflexivity|]. split; [vm_compute; reflexivity|]. split; [vm_compute; lia|].
  intros H. inversion_clear H. inversion_clear H1. cbn in *. intuition congruence.
Qed.
Print Assumptions C04_refine_guard_refuted.

(** ** C44: supervised data *)
(** Finding: KernelHerding and SteinThinning reject every supervised data set. *)
Theorem C44_greedy_supervised_refuted :
  forall P Y (p0 : P) (y0 : Y) (k : P -> P -> R) m unique bs mode ord (x : list P) (w : list R) (y : list Y) reg,
    x <> [] -> length w = length x -> length y = length x ->
    herding_reduce EROps p0 y0 (mkHerding m (kE k) unique bs mode) ord
      (mkData x (map Fin w) (Some y)) None = Err ValueError /\
    stein_reduce EROps p0 y0 (mkStein m (kE k) unique bs reg) ord
      (mkData x (map Fin w) (Some y)) = Err ValueError.
Proof.
  intros. split; [now apply herding_supervised_fresh|apply stein_supervised].
Qed.
Print Assumptions C44_greedy_supervised_refuted.
