(** Theorems: the linearized equation. *)
From Coq Require Import Reals Arith ZArith List Bool Lia Lra.
From Verif Require Import Outcome RSum Linearized_Model Linearized_Spec Linearized_Proofs.
Open Scope R_scope.

(** ** the vector operations *)
(** For usable vectors, also if they coincide, the result is computed from the vectors as they were, and no other vector is touched; the
    use of any other number is beyond the data. *)
Theorem linearized_vectors : forall W (d : data W) out c0 v0 c1 v1,
  (usable out -> usable v0 -> usable v1 -> exists d', add out c0 v0 c1 v1 d = Ok d' /\ rest d' = rest d /\
     (forall e i, vector d' out e i = c0 * vector d v0 e i + c1 * vector d v1 e i) /\ (forall v, usable v -> v <> out -> vector d' v = vector d v)) /\
  (usable out -> usable v0 -> exists d', scale out v0 c0 d = Ok d' /\ rest d' = rest d /\
     (forall e i, vector d' out e i = c0 * vector d v0 e i) /\ (forall v, usable v -> v <> out -> vector d' v = vector d v)) /\
  (~ usable out -> add out c0 v0 c1 v1 d = Ub /\ scale out v0 c0 d = Ub).
Proof.
  intros W d out c0 v0 c1 v1. split; [|split].
  - intros A B C. destruct (add_ok out c0 v0 c1 v1 d A B C) as (d' & E & R & V & K). exists d'. repeat split; try assumption. intros e i. now rewrite V.
  - intros A B. destruct (scale_ok out v0 c0 d A B) as (d' & E & R & V & K). exists d'. repeat split; try assumption. intros e i. now rewrite V.
  - intros N. unfold add, scale. rewrite (stage_out out N). now split.
Qed.
Print Assumptions linearized_vectors.

(** [inner] is an inner product: symmetric, linear (also after [add] has written a vector), positive, and zero for the zero vector only. *)
Theorem linearized_inner : forall W n_elem n_var nq weights ref_state,
  (forall q, (q < nq)%nat -> 0 < weights q) -> (forall v, (v < n_var)%nat -> 0 < ref_state v) ->
  forall (d : data W) a b, usable a -> usable b -> let inner := inner n_elem n_var nq weights ref_state in
  inner a b d = inner b a d /\
  (exists s, inner a a d = Ok s /\ 0 <= s /\ (s = 0 <-> forall e i, (e < n_elem)%nat -> (i < n_var * nq)%nat -> vector d a e i = 0)) /\
  (forall out c0 v0 c1 v1 d', usable out -> usable v0 -> usable v1 -> b <> out -> add out c0 v0 c1 v1 d = Ok d' ->
     exists x y, inner v0 b d = Ok x /\ inner v1 b d = Ok y /\ inner out b d' = Ok (c0 * x + c1 * y)).
Proof.
  intros W n_elem n_var nq weights ref_state PW PR d a b A B inner_. unfold inner_. split; [|split].
  - rewrite !inner_ok by assumption. f_equal. apply product_sym.
  - rewrite inner_ok by assumption. eexists. split; [reflexivity|]. split; [now apply product_pos|]. split.
    + now apply product_def.
    + intros Z. unfold product. transitivity (rsum n_elem (fun _ => 0)); [|apply rsum_0]. apply rsum_ext; intros e E.
      transitivity (rsum n_var (fun _ => 0)); [|apply rsum_0]. apply rsum_ext; intros v V.
      transitivity (rsum nq (fun _ => 0)); [|apply rsum_0]. apply rsum_ext; intros q Q. rewrite Z by (try assumption; nia). unfold Rdiv. ring.
  - intros out c0 v0 c1 v1 d' O V0 V1 N E. destruct (add_ok out c0 v0 c1 v1 d O V0 V1) as (d2 & E2 & _ & V & K).
    assert (d2 = d') by congruence. subst d2. rewrite !inner_ok by assumption. do 2 eexists. split; [reflexivity|]. split; [reflexivity|].
    rewrite V, K by assumption. now rewrite product_lin.
Qed.
Print Assumptions linearized_inner.

(** ** evaluating the operator *)
(** [matvec] never leaves the data, puts the state back to the linearization point, and changes no vector but the output and the working
    data of the update. *)
Theorem linearized_state : forall W (faces update : data W -> data W) d out inp, keeps_vectors faces -> keeps_upper update ->
  (0 <= out < 30)%Z -> (0 <= inp < 30)%Z -> exists d', matvec faces update out inp d = Ok d' /\
  (forall e i, vector d' (-4) e i = vector d (-1) e i) /\ (forall v, (-1 <= v < 30)%Z -> v <> out -> vector d' v = vector d v).
Proof.
  intros W faces update d out inp KF KU O I. assert (U : usable inp) by (unfold usable; lia).
  destruct (matvec_any faces update KF KU out inp d O U) as (d1 & d' & _ & E & _ & P & K). exists d'. now repeat split.
Qed.
Print Assumptions linearized_state.
(** The constructor leaves the state unchanged, records it as the linearization point and starts from the solution 0. *)
Theorem linearized_start : forall W (faces update : data W -> data W) d, keeps_vectors faces -> keeps_upper update ->
  exists d', linearized faces update d = Ok d' /\
  (forall e i, vector d' 0 e i = 0 /\ vector d' (-1) e i = vector d (-4) e i /\ vector d' (-4) e i = vector d (-4) e i).
Proof.
  intros W faces update d KF KU. destruct (linearized_main faces update KF KU d) as (d' & E & H). exists d'. split; [exact E|].
  intros e i. destruct (H e i) as (A & _ & B & C). now repeat split.
Qed.
Print Assumptions linearized_start.

(** ** the operator *)
(** The documented operator is [(F(u) - F(u + eps x)) / eps] for a residual [F]; so its value at the zero vector is zero. *)
Definition operator_vanishes : Prop := forall (faces update : data unit -> data unit) d d0 d', keeps_vectors faces -> keeps_upper update ->
  linearized faces update d = Ok d0 -> matvec faces update 2 0 d0 = Ok d' -> forall e i, vector d' 2 e i = 0.
(** It subtracts the residual cache instead of a state: even for an update that changes nothing, at a state with zero residual, the value at
    the zero vector is the state itself divided by [eps]. *)
Theorem linearized_operator_refuted : ~ operator_vanishes.
Proof.
  intros H. pose (d := {| stages := fun k _ _ => if (k =? 0)%nat then 1 else 0; rest := tt |}). pose (same := fun x : data unit => x).
  assert (KF : keeps_vectors same) by (intros x v _; reflexivity). assert (KU : keeps_upper same) by (intros x v _; reflexivity).
  destruct (linearized_main same same KF KU d) as (d0 & E0 & V0).
  assert (C : forall e i, vector d0 (-3) e i = 0).
  { intros e i. revert E0. cbv -[Rplus Rmult Rdiv Ropp IZR finite_diff same]. unfold same. intros E0. injection E0 as <-. cbn. reflexivity. }
  destruct (matvec_any same same KF KU 2 0 d0 ltac:(lia) ltac:(unfold usable; lia)) as (d1 & d' & (_ & M1 & M2) & E & V & _).
  specialize (H same same d d0 d' KF KU E0 E 0%nat 0%nat). rewrite V in H. cbv zeta in H. replace (2 =? 1)%Z with false in H by reflexivity. unfold same in H.
  destruct (V0 0%nat 0%nat) as (A0 & A1 & A2 & A3). rewrite M1, A0, A3, A1, M2, C in H by lia.
  replace (vector d (-4) 0%nat 0%nat) with 1 in H by reflexivity. unfold finite_diff in H. lra.
Qed.
Print Assumptions linearized_operator_refuted.
(** What holds: for any output but the right hand side, the output is the state after an update from [u + eps x], minus the residual cache
    that this update leaves, minus the right hand side, divided by [eps]. *)
Theorem linearized_operator_partial : forall W (faces update : data W -> data W) d out inp, keeps_vectors faces -> keeps_upper update ->
  (0 <= out < 30)%Z -> out <> 1%Z -> (0 <= inp < 30)%Z -> exists d1 d', moved d inp d1 /\ matvec faces update out inp d = Ok d' /\
  forall e i, vector d' out e i = (vector (update (faces d1)) (-4) e i - vector (update (faces d1)) (-3) e i - vector d 1 e i) / finite_diff.
Proof.
  intros W faces update d out inp KF KU O N I. assert (U : usable inp) by (unfold usable; lia).
  destruct (matvec_any faces update KF KU out inp d O U) as (d1 & d' & M & E & V & _). exists d1, d'. split; [exact M|]. split; [exact E|].
  intros e i. rewrite V. cbv zeta. destruct (Z.eqb_spec out 1); [contradiction|reflexivity].
Qed.
Print Assumptions linearized_operator_partial.

(** ** the right hand side *)
(** Vector 1 is to be the residual at the linearization point; so it is not zero where an update changes the state. *)
Definition right_hand_side_residual : Prop := forall (faces update : data unit -> data unit) d d', keeps_vectors faces -> keeps_upper update ->
  linearized faces update d = Ok d' -> (forall d e i, vector (update d) (-4) e i = vector d (-4) e i + 1) -> exists e i, vector d' 1 e i <> 0.
Theorem linearized_rhs_refuted : ~ right_hand_side_residual.
Proof.
  intros H. pose (d := {| stages := fun _ _ _ => 0; rest := tt |}). pose (same := fun x : data unit => x).
  pose (up := fun x : data unit => put 0 (fun e i => vector x (-4) e i + 1) x).
  assert (KF : keeps_vectors same) by (intros x v _; reflexivity).
  assert (KU : keeps_upper up).
  { intros x v L. unfold up, vector, put. cbn [stages]. destruct (Nat.eqb_spec (Z.to_nat (4 + v)) 0); [lia|reflexivity]. }
  destruct (linearized_main same up KF KU d) as (d' & E & V). destruct (H same up d d' KF KU E) as (e & i & N).
  - intros x e i. reflexivity.
  - destruct (V e i) as (_ & A & _). contradiction.
Qed.
Print Assumptions linearized_rhs_refuted.
(** What the constructor really leaves there is zero, whatever the update does: computing [matvec] into vector 1 subtracts the result from
    itself. *)
Theorem linearized_rhs_partial : forall W (faces update : data W -> data W) d d', keeps_vectors faces -> keeps_upper update ->
  linearized faces update d = Ok d' -> forall e i, vector d' 1 e i = 0.
Proof.
  intros W faces update d d' KF KU E e i. destruct (linearized_main faces update KF KU d) as (d2 & E2 & V). assert (d2 = d') by congruence. subst d2. apply V.
Qed.
Print Assumptions linearized_rhs_partial.

(** ** the reference state *)
(** The reference for the momentum is to be the magnitude of the freestream momentum. *)
Definition reference_momentum : Prop := forall n_dim freestream i, (i < n_dim)%nat ->
  reference n_dim freestream i = sqrt (rsum n_dim (fun j => freestream j ^ 2)).
Theorem linearized_reference_refuted : ~ reference_momentum.
Proof.
  intros H. specialize (H 2%nat (fun i => if (i <? 2)%nat then 0 else 1) 0%nat ltac:(lia)). unfold reference in H. cbn in H.
  replace (0 + 0 * (0 * 1) + 0 * (0 * 1)) with 0 in H by ring. rewrite sqrt_0 in H. apply sqrt_eq_0 in H; lra.
Qed.
Print Assumptions linearized_reference_refuted.
(** What it is: the density of the freestream times the square root of the number of dimensions, so it is positive with the freestream's
    density and energy and [inner] is an inner product. *)
Theorem linearized_reference_partial : forall n_dim freestream, (0 < n_dim)%nat -> (forall i, (n_dim <= i < n_dim + 2)%nat -> 0 < freestream i) ->
  (forall i, (i < n_dim)%nat -> reference n_dim freestream i = sqrt (INR n_dim) * freestream n_dim) /\
  (forall i, (n_dim <= i)%nat -> reference n_dim freestream i = freestream i) /\
  (forall i, (i < n_dim + 2)%nat -> 0 < reference n_dim freestream i).
Proof.
  intros n_dim freestream N P. assert (F : 0 < freestream n_dim) by (apply P; lia).
  assert (A : forall i, (i < n_dim)%nat -> reference n_dim freestream i = sqrt (INR n_dim) * freestream n_dim).
  { intros i I. unfold reference. destruct (Nat.ltb_spec i n_dim); [|lia]. rewrite rsum_const. rewrite sqrt_mult; [|apply pos_INR|nra].
    f_equal. rewrite sqrt_pow2; lra. }
  assert (B : forall i, (n_dim <= i)%nat -> reference n_dim freestream i = freestream i).
  { intros i I. unfold reference. destruct (Nat.ltb_spec i n_dim); [lia|reflexivity]. }
  split; [exact A|]. split; [exact B|]. intros i I. destruct (Nat.lt_ge_cases i n_dim) as [L|L].
  - rewrite A by exact L. apply Rmult_lt_0_compat; [|exact F]. apply sqrt_lt_R0. apply lt_0_INR. exact N.
  - rewrite B by exact L. apply P. lia.
Qed.
Print Assumptions linearized_reference_partial.

(** An update that adds 1 to the state and leaves the residual cache at zero: the operator takes [x = 0] to 2000 at a state of 1 (the
    documented one takes it to 0). *)
Example linearized_matvec_example : let d := {| stages := fun k _ _ => if (k =? 0)%nat then 1 else 0; rest := tt |} in
  let up := fun x : data unit => put 0 (fun e i => vector x (-4) e i + 1) x in
  exists d0 d', linearized (fun x => x) up d = Ok d0 /\ matvec (fun x => x) up 2 0 d0 = Ok d' /\ vector d' 2 0%nat 0%nat = 2000 /\ vector d' (-4) 0%nat 0%nat = 1.
Proof.
  intros d up. eexists. eexists. split; [reflexivity|]. split; [reflexivity|]. split.
  - cbv -[Rplus Rmult Rdiv Ropp IZR]. field.
  - cbv -[Rplus Rmult Rdiv Ropp IZR]. field.
Qed.
Example linearized_inner_example : let d := {| stages := fun k _ i => if (k =? 4)%nat then INR i else 1; rest := tt |} in
  inner 1 2 2 (fun _ => 1 / 2) (fun v => INR v + 1) 0 1 d = Ok (7 / 4).
Proof. intros d. cbn. change (Pos.to_nat 4) with 4%nat. change (Pos.to_nat 5) with 5%nat. cbn. f_equal. field. Qed.
