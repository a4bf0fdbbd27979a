(** * Model of coreax/solvers/coresubset.py: KernelThinning (1324-1704) and
    CompressPlusPlus (1707-1866) *)
From Coq Require Import List ZArith Lia Bool.
From Verif Require Import Num Jax DataModel MeanModel GreedyModel MetricModel CholModel MapReduceModel.
Import ListNotations.

Section KT.
  Context {V : Type} (O : FOps V) {P Y K : Type} (p0 : P) (y0 : Y).
  Notation data := (Data P Y V).
  Notation cs := (Coresubset P Y V).

  (** coresubset.py:1324-1352, the fields of [KernelThinning].  External functions:
      [kt_log] is [jnp.log]; [kt_split key] is [jax.random.split(key)]; [kt_uniform key]
      is [jax.random.uniform(key)]; [kt_choice n draws p replace] is
      [jax.random.choice(random_key, n, (draws,), p=p, replace=replace)] (as used by
      [RandomSample]); [kt_depth n size] is
      [math.floor(math.log2(n) - math.log2(size))] (line 1378, float arithmetic);
      [kt_ord size i] is the order in which the duplicate writes of one scatter of the
      final herding refinement are applied (see GreedyModel). *)
  Record kthin := mkKT {
    kt_size : nat; kt_kernel : P -> P -> V; kt_sqrt : P -> P -> V; kt_delta : V;
    kt_key : K; kt_log : V -> V; kt_split : K -> K * K; kt_uniform : K -> V;
    kt_choice : nat -> nat -> option (list V) -> bool -> result (list nat);
    kt_depth : nat -> nat -> nat;
    kt_ord : nat -> nat -> list nat }.

  (** coresubset.py:1461-1469 [compute_kernel_distance] *)
  Definition kernel_distance (k : P -> P -> V) (x1 x2 : P) : V :=
    fsqrt O (fsub O (fadd O (k x1 x1) (k x2 x2)) (fmul O (fofZ O 2) (k x1 x2))).
  Definition sqr (a : V) : V := fmul O a a.
  (** coresubset.py:1471-1480 [get_a_and_sigma] *)
  Definition a_and_sigma (log : V -> V) (delta b sigma : V) : V * V :=
    let a := fmax O (fmul O (fmul O b sigma)
                       (fsqrt O (fmul O (fofZ O 2) (log (fdiv O (fofZ O 2) delta)))))
                    (sqr b) in
    let growth := fmul O (sqr b)
                    (fadd O (f1 O)
                       (fdiv O (fmul O (fsub O (sqr b) (fmul O (fofZ O 2) a)) (sqr sigma)) (sqr a))) in
    (a, fsqrt O (fadd O (sqr sigma) (fmax O growth (f0 O)))).
  (** coresubset.py:1482-1541 [get_alpha], the returned [alpha]; the masks are the ones
      before the update *)
  Definition get_alpha (k : P -> P -> V) (orig : list P) (x1 x2 : P)
      (first : list Z) (mask cmask : list V) : V :=
    let term1 := fdot O (map2 (fsub O) (map (fun y => k y x1) orig) (map (fun y => k y x2) orig)) mask in
    let chosen := map (fun j => jget p0 orig j) first in
    let term2 := fmul O (fofZ O (-2))
      (fdot O (map2 (fsub O) (map (fun y => k y x1) chosen) (map (fun y => k y x2) chosen)) cmask) in
    fadd O term1 term2.
  (** coresubset.py:1555-1564 [probabilistic_swap]: the decision and the next key.
      [1 / 2 * (...)] is [0.5 * (...)]. *)
  Definition should_swap (s : kthin) (a alpha : V) (key : K) : bool * K :=
    let (key1, key2) := kt_split s key in
    let p := fmul O (fdiv O (f1 O) (fofZ O 2)) (fsub O (f1 O) (fdiv O alpha a)) in
    (fleb O (kt_uniform s key1) p, key2).

  (** coresubset.py:1566-1625, the loop state and [kernel_thinning_body_fun] *)
  Record hstate := mkH {
    h_first : list Z; h_second : list Z; h_sigma : V; h_mask : list V; h_cmask : list V; h_key : K }.
  Definition kt_body (s : kthin) (orig : list P) (i : nat) (st : hstate) : hstate :=
    let e := (2 * Z.of_nat i)%Z in
    let x1 := jget p0 orig e in
    let x2 := jget p0 orig (e + 1) in
    let (a, sigma') := a_and_sigma (kt_log s) (kt_delta s) (kernel_distance (kt_sqrt s) x1 x2) (h_sigma st) in
    let alpha := get_alpha (kt_sqrt s) orig x1 x2 (h_first st) (h_mask st) (h_cmask st) in
    let mask := jset (jset (h_mask st) e (f1 O)) (e + 1) (f1 O) in
    let cmask := jset (h_cmask st) (Z.of_nat i) (f1 O) in
    let (swap, key') := should_swap s a alpha (h_key st) in
    let (val1, val2) := if swap then ((e + 1)%Z, e) else (e, (e + 1)%Z) in
    mkH (jset (h_first st) (Z.of_nat i) val1) (jset (h_second st) (Z.of_nat i) val2)
        sigma' mask cmask key'.
  (** coresubset.py:1449-1458, 1627-1640: initial state and loop; every call starts from
      the solver's own key *)
  Definition kt_half_loop (s : kthin) (orig : list P) : hstate :=
    let n := (length orig / 2)%nat in
    fori n (kt_body s orig)
      (mkH (repeat 0%Z n) (repeat 0%Z n) (f0 O) (repeat (f0 O) (2 * n)) (repeat (f0 O) n) (kt_key s)).
  (** coresubset.py:1436-1644 [kt_half].  With an odd number of points the mask of
      length [2 * n] and the [2 * n + 1] kernel differences cannot be multiplied and
      [jnp.dot] raises. *)
  Definition kt_half (s : kthin) (d : data) : result (cs * cs) :=
    if Nat.odd (d_len d) then Err TypeError else
    let st := kt_half_loop s (d_x d) in
    do c1 <- cs_build O p0 y0 (IArray (h_first st)) (AData d);
    do c2 <- cs_build O p0 y0 (IArray (h_second st)) (AData d);
    Ok (c1, c2).

  (** coresubset.py:1387-1434 [kt_half_recursive]; the current coreset is either a
      data set or a coresubset of the original data *)
  Fixpoint kt_half_rec (s : kthin) (cur : data + cs) (m : nat) (orig : data) : result (list cs) :=
    match m with
    | 0%nat => match cur with
           | inr c => Ok [c]
           | inl d => do c <- cs_init O p0 y0 (IData (map Z.of_nat (seq 0 (d_len d)))
                                                  (repeat (f1 O) (d_len d))) (AData orig);
                      Ok [c]
           end
    | S m' =>
        let d := match cur with inr c => points O p0 y0 c | inl d => d end in
        do cc <- kt_half s d;
        (* lines 1413-1414: point the subsets at the original data;
           lines 1417-1429: map their indices back to the original data *)
        let remap (c : cs) :=
          mkCS (match cur with inr p => gather 0%Z (c_idx p) (c_idx c) | inl _ => c_idx c end)
               (c_w c) orig in
        do l <- kt_half_rec s (inr (remap (fst cc))) m' orig;
        do r <- kt_half_rec s (inr (remap (snd cc))) m' orig;
        Ok (l ++ r)
    end.

  (** coresubset.py:1654-1667 [get_baseline_coreset]: RandomSample with its defaults *)
  Definition baseline (s : kthin) (size : nat) (d : data) : result cs :=
    random_reduce O p0 y0 (mkRS size false true (kt_choice s)) d.
  (** all candidates stacked by [jnp.array] (lines 1680-1681) must have the same length *)
  Definition same_lengths (l : list cs) : bool :=
    match l with
    | [] => true
    | c :: t => forallb (fun c' => Nat.eqb (length (c_idx c')) (length (c_idx c))) t
    end.
  (** coresubset.py:1669-1686 [kt_choose] *)
  Definition kt_choose (s : kthin) (cands : list cs) (d : data) : result (list Z) :=
    if negb (same_lengths cands) then Err ValueError else
    do mmds <- mapM (fun c => mmd_compute O p0 y0 (kt_kernel s)
                                (as_data O (d_x (points O p0 y0 c))) d (BOne None)) cands;
    let best := argmin O mmds in
    Ok (nth best (map c_idx cands) []).
  (** coresubset.py:1688-1704 [kt_refine]: KernelHerding with its defaults *)
  Definition kt_refine (s : kthin) (c : cs) : result cs :=
    do r <- herding_refine O p0 y0 (mkHerding (kt_size s) (kt_kernel s) true (BOne None) Greedy)
              (kt_ord s (kt_size s)) c None;
    Ok (fst r).

  (** the candidates of [reduce]: the halves, then the random baseline (lines 1376-1383) *)
  Definition kt_candidates (s : kthin) (d : data) : result (list cs) :=
    let m := kt_depth s (d_len d) (kt_size s) in
    let clipped := d_take d (kt_size s * 2 ^ m) in
    do partition <- kt_half_rec s (inl clipped) m d;
    do base <- baseline s (kt_size s) d;
    Ok (partition ++ [base]).
  (** coresubset.py:1354-1385 [KernelThinning.reduce] *)
  Definition kt_reduce (s : kthin) (d : data) : result cs :=
    if (d_len d <? kt_size s)%nat then Err ValueError else
    do cands <- kt_candidates s d;
    do best <- kt_choose s cands d;
    do c <- cs_init O p0 y0 (IData best (repeat (f1 O) (length best))) (AData d);
    kt_refine s c.

  (** ** CompressPlusPlus *)
  (** coresubset.py:1707-1746, the fields; [cp_log4 n] is [math.floor(math.log(n, 4))].
      The other fields are those of the KernelThinning solver built at lines 1789-1795
      and 1812-1818, so they are kept as one; [kt_size] of that solver is the coreset
      size. *)
  Record compress := mkCP { cp_g : Z; cp_kt : kthin; cp_log4 : nat -> nat }.
  Definition with_size (s : kthin) (size : nat) : kthin :=
    mkKT size (kt_kernel s) (kt_sqrt s) (kt_delta s) (kt_key s) (kt_log s) (kt_split s)
         (kt_uniform s) (kt_choice s) (kt_depth s) (kt_ord s).
  (** coresubset.py:1799-1820 [_compress_thin] *)
  Definition compress_thin (s : kthin) (d : data) (size : nat) (idx : list Z) : result (list Z) :=
    do c <- kt_reduce (with_size s size) (d_getitem O p0 y0 d idx);
    Ok (gather 0%Z idx (c_idx c)).
  (** coresubset.py:1776-1797 [_compress_half] *)
  Definition compress_half (s : kthin) (d : data) (idx : list Z) : result (list Z) :=
    compress_thin s d (length idx / 2) idx.
  (** coresubset.py:1822-1846 [_compress].  [fuel] bounds the recursion (Python's own
      recursion limit); [reshape] into 4 rows fails unless the length is a multiple of
      4.  [jax.vmap] over the rows is modelled by a map: rows do not interact. *)
  Fixpoint compress_rec (s : kthin) (d : data) (g : nat) (fuel : nat) (idx : list Z) : result (list Z) :=
    if (length idx =? 4 ^ g)%nat then Ok idx else
    match fuel with
    | 0%nat => Err RecursionLimit
    | S fuel' =>
        if negb (length idx mod 4 =? 0)%nat then Err ShapeError else
        do parts <- mapM (compress_rec s d g fuel') (chunks (length idx / 4) idx);
        compress_half s d (concat parts)
    end.
  (** coresubset.py:1744-1866 [CompressPlusPlus.reduce].  The bound of line 1772 is the
      exact number [2 ** g * sqrt(4 ** p) = 2 ** (g + p)].  [math.log(0, 4)] raises
      ValueError. *)
  Definition compress_reduce (c : compress) (fuel : nat) (d : data) : result cs :=
    let n := d_len d in
    let s := cp_kt c in
    if (n <? kt_size s)%nat then Err ValueError else
    if (n =? 0)%nat then Err ValueError else
    let p := cp_log4 c n in
    if negb ((0 <=? cp_g c) && (cp_g c <=? Z.of_nat p))%Z then Err ValueError else
    let g := Z.to_nat (cp_g c) in
    if negb (kt_size s <=? 2 ^ g * 2 ^ p)%nat then Err ValueError else
    do clipped <- kt_choice s n (4 ^ p) None false;
    do compressed <- compress_rec s d g fuel (map Z.of_nat clipped);
    do idx <- compress_thin s d (kt_size s) compressed;
    cs_init O p0 y0 (IData idx (repeat (f1 O) (length idx))) (AData d).
End KT.
Arguments kthin : clear implicits.
Arguments hstate : clear implicits.
Arguments compress : clear implicits.
