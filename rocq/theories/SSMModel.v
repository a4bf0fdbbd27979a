(** * Model of sliced score matching and its network
    (coreax/score_matching.py 101-331, coreax/networks.py) *)
From Coq Require Import List ZArith Bool.
From Verif Require Import Num Jax.
Import ListNotations.

Section SSM.
  Context {V : Type} (O : FOps V).
  Notation vec := (list V).
  Notation mat := (list (list V)).

  (** [flax.linen.Dense]: [x @ kernel + bias]; [kernel] has one row per input *)
  Definition dense (layer : mat * vec) (x : vec) : vec :=
    let '(kernel, bias) := layer in
    map (fun j => fadd O (fdot O x (map (fun row => nth j row (f0 O)) kernel)) (nth j bias (f0 O)))
        (seq 0 (length bias)).
  (** networks.py:52-62 [ScoreNetwork.__call__] on one vector; [softplus] is
      [nn.softplus] on array entries.  The parameters are the hidden layers and the
      output layer. *)
  Definition score_network (softplus : V -> V) (params : list (mat * vec) * (mat * vec)) (x : vec) : vec :=
    dense (snd params) (fold_left (fun x layer => map softplus (dense layer x)) (fst params) x).

  (** The constructor's fields (score_matching.py:141-154) that the model uses;
      [optimiser] and [random_generator] are arguments of [match_] below. *)
  Record ssm := mkSSM {
    m_noise_conditioning : bool; m_use_analytic : bool; m_num_random_vectors : Z;
    m_num_epochs : Z; m_batch_size : Z; m_num_noise_models : Z; m_sigma : V; m_gamma : V }.
  (** score_matching.py:157-205 [__init__] and 209-219 [__check_init__].  A
      deprecated [learning_rate] raises DeprecationWarning, as does an optimiser that
      is not an [optax.GradientTransformation].  [Some z] is a Python int, [None] any
      other value. *)
  Inductive outcome := Constructed (s : ssm) | Deprecated | Invalid.
  Definition below (bound : Z) (v : option Z) : bool := match v with None => true | Some z => (z <? bound)%Z end.
  Definition ssm_init (learning_rate_given optimiser_is_gradient_transformation : bool) (noise_conditioning use_analytic : bool)
      (num_random_vectors num_epochs batch_size num_noise_models : option Z) (sigma gamma : V) : outcome :=
    if learning_rate_given then Deprecated
    else if negb optimiser_is_gradient_transformation then Deprecated
    else if existsb (below 0) [num_epochs; batch_size] then Invalid
    else if existsb (below 1) [num_random_vectors; num_noise_models] then Invalid
    else let int v := match v with Some z => z | None => 0%Z end in
      Constructed (mkSSM noise_conditioning use_analytic (int num_random_vectors) (int num_epochs) (int batch_size) (int num_noise_models) sigma gamma).

  (** [jax.jvp(f, (x,), (v,))]: value and directional derivative *)
  Variable jvp : (vec -> vec) -> vec -> vec -> vec * vec.
  Definition half : V := fdiv O (f1 O) (fofZ O 2).

  (** 233-247 [_loss_element] *)
  Definition loss_element (s : ssm) (score : vec -> vec) (x v : vec) : V :=
    let '(sc, u) := jvp score x v in
    if m_use_analytic s
    then fadd O (fdot O v u) (fdot O (map (fmul O half) sc) sc)
    else fadd O (fdot O v u) (fmul O half (fmul O (fdot O v sc) (fdot O v sc))).
  (** 221-249 [_loss]: mapped over points, and over the vectors of each point *)
  Definition loss (s : ssm) (score : vec -> vec) (x : mat) (vs : list mat) : mat :=
    map2 (fun p vecs => map (loss_element s score p) vecs) x vs.
  (** [.mean()] of a two-dimensional array *)
  Definition mean_all (m : mat) : V :=
    fdiv O (fsum O (concat m)) (fofZ O (Z.of_nat (length (concat m)))).
  (** 268-271 [standard_loss] *)
  Definition standard_loss (s : ssm) (score : vec -> vec) (x : mat) (vs : list mat) : V :=
    mean_all (loss s score x vs).
  (** [x ** i] for a loop counter *)
  Fixpoint pow (x : V) (i : nat) : V := match i with 0%nat => f1 O | S i => fmul O (pow x i) x end.
  (** 273-285 [loss] of the training step; [noise n] is [jr.normal(jr.key(0), x.shape)], the same
      array for every noise model (280).  [x_perturbed] is built from the outer [x],
      which the caller (287) also passes as [_x]. *)
  Definition train_loss (s : ssm) (noise : mat) (score : vec -> vec) (x : mat) (vs : list mat) : V :=
    if m_noise_conditioning s then
      fori (Z.to_nat (m_num_noise_models s)) (fun i acc =>
        let sigma := fmul O (m_sigma s) (pow (m_gamma s) i) in
        let x_perturbed := map2 (map2 (fun a e => fadd O a (fmul O sigma e))) x noise in
        fadd O acc (fmul O (fmul O sigma sigma) (standard_loss s score x_perturbed vs))) (f0 O)
    else standard_loss s score x vs.
End SSM.

(** 292-330 [match].  The network [apply], its initialisation, the optimiser step
    (value_and_grad and apply_gradients of 287-288) and the random draws are arguments;
    [State] is the train state.  The input is already two-dimensional. *)
Section Match.
  Context {V : Type} (O : FOps V) {Key State : Type}.
  Variables (split3 : Key -> Key * Key * Key) (split : Key -> nat -> nat -> Key)
            (generate : Key -> nat -> nat -> nat -> list (list (list V)))
            (randint : Key -> nat -> Z -> Z -> list Z)
            (init : Key -> nat -> State) (apply : State -> list V -> list V)
            (noise : nat -> nat -> list (list V))
            (jvp : (list V -> list V) -> list V -> list V -> list V * list V)
            (optimise : (State -> V) -> State -> State).
  (** 251-290 [_train_step]; the loss is handed to the optimiser as a function of the
      parameters *)
  Definition train_step (s : ssm) (st : State) (x : list (list V)) (vs : list (list (list V))) : State :=
    optimise (fun st => train_loss O jvp s (noise (length x) (length (hd [] x))) (apply st) x vs) st.
  Definition train (s : ssm) (key : Key) (x : list (list V)) : State :=
    let num_points := length x in
    let data_dimension := length (hd [] x) in
    let '(generator_key, state_key, batch_key) := split3 key in
    let random_vectors := generate generator_key num_points (Z.to_nat (m_num_random_vectors s)) data_dimension in
    let epochs := Z.to_nat (m_num_epochs s) in
    fori epochs (fun i st =>
      let idx := randint (split batch_key epochs i) (Z.to_nat (m_batch_size s)) 0%Z (Z.of_nat num_points) in
      train_step s st (gather [] x idx) (gather [] random_vectors idx))
      (init state_key data_dimension).
  (** the learned score function, applied to an array: Dense acts on the last axis *)
  Definition match_ (s : ssm) (key : Key) (x : list (list V)) (x_ : list (list V)) : list (list V) :=
    map (apply (train s key x)) x_.
End Match.
Arguments mkSSM {V}. Arguments m_noise_conditioning {V}. Arguments m_use_analytic {V}. Arguments m_num_random_vectors {V}.
Arguments m_num_epochs {V}. Arguments m_batch_size {V}. Arguments m_num_noise_models {V}. Arguments m_sigma {V}. Arguments m_gamma {V}.
Arguments Constructed {V}. Arguments Deprecated {V}. Arguments Invalid {V}. Arguments ssm_init {V}.
