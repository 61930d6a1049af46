(** Faces of elements that meet have the same normals. *)
From Coq Require Import Reals List Arith Bool ZArith Lia Lra FunctionalExtensionality.
From Verif Require Import Outcome RSum Tensor_Model Tensor_Spec Tensor_Proofs Row_Model Row_Spec Row_Proofs Connection_Model Connection_Spec Connection_Proofs Connection2_Proofs Basis_Model Basis_Spec Basis_Proofs Quad_Model Quad_Spec Quad_Proofs Spatial_Model Spatial_Spec Spatial_Proofs Spatial_Proofs2 Spatial_Proofs3 Spatial_Proofs4 Free_Spec Free_Proofs1 Free_Proofs2 Free_Proofs4 Jac_Model Jac_Spec Jac_Proofs1 Jac_Proofs2 Jac_Proofs4 Jac_Proofs5.
Import ListNotations.
Local Open Scope R_scope.

(** ** the vertex at the same place *)
Definition partner_vertex (nd : nat) (d : direction) (u : nat) : nat :=
  let x := coords 2 nd u in
  fold_left (fun i k => 2 * i + if (k =? dim1 d) then Nat.b2n (sign1 d) else if (k =? dim0 d) then (if Bool.eqb (sign0 d) (sign1 d) then x (dim1 d) else 1 - x (dim1 d)) else x k)%nat (seq 0 nd) 0%nat.
Definition partner_ok (nd : nat) (d : direction) (u : nat) : bool :=
  implb (coords 2 nd u (dim0 d) =? Nat.b2n (sign0 d))%nat (let u' := partner_vertex nd d u in (u' <? 2 ^ nd)%nat && (coords 2 nd u' (dim1 d) =? Nat.b2n (sign1 d))%nat && glued_b nd 1 d (coords 2 nd u) (coords 2 nd u')).
Definition dirs (nd : nat) : list direction := flat_map (fun a => flat_map (fun b => flat_map (fun s => map (fun t => mk_dir a b s t) [false; true]) [false; true]) (seq 0 nd)) (seq 0 nd).
Lemma in_dirs nd d : allowed nd d -> In d (dirs nd).
Proof.
  intros (A & B & _). destruct d as [a b s t]. cbn [dim0 dim1] in *. unfold dirs. apply in_flat_map. exists a. split; [apply in_seq; lia|]. apply in_flat_map. exists b. split; [apply in_seq; lia|]. apply in_flat_map. exists s. split; [destruct s; cbn; auto|]. apply in_map_iff. exists t. split; [reflexivity|destruct t; cbn; auto].
Qed.
Definition is_allowed (d : direction) : bool := negb (dim0 d =? dim1 d)%nat || xorb (sign0 d) (sign1 d).
Lemma allowed_b nd d : allowed nd d -> is_allowed d = true.
Proof. intros (_ & _ & [H|H]); unfold is_allowed; [apply Nat.eqb_neq in H; now rewrite H|]. destruct (sign0 d), (sign1 d); cbn; try congruence; apply orb_true_r. Qed.
Lemma partner_all : forallb (fun nd => forallb (fun d => implb (is_allowed d) (forallb (partner_ok nd d) (seq 0 (2 ^ nd)))) (dirs nd)) [2; 3]%nat = true. Proof. vm_compute. reflexivity. Qed.
Lemma partner_meets nd d v0 v1 u r : (2 <= nd <= 3)%nat -> allowed nd d -> meet nd d v0 v1 -> on_face nd (dim0 d) (sign0 d) u -> (r < nd)%nat -> v0 r u = v1 r (partner_vertex nd d u).
Proof.
  intros N A M [U UF] RR. pose proof partner_all as H. rewrite forallb_forall in H. specialize (H nd ltac:(cbn; lia)). rewrite forallb_forall in H. specialize (H d (in_dirs nd d A)). rewrite (allowed_b nd d A) in H. cbn [implb] in H. rewrite forallb_forall in H. specialize (H u ltac:(apply in_seq; lia)).
  unfold partner_ok in H. rewrite (proj2 (Nat.eqb_eq _ _) UF) in H. cbn [implb] in H. apply andb_true_iff in H as [H G]. apply andb_true_iff in H as [L F]. apply Nat.ltb_lt in L. apply Nat.eqb_eq in F. apply glued_b_ok in G. apply M; try assumption; split; assumption.
Qed.

(** ** the points at the same place *)
Record joined (nd : nat) (d : direction) (x y : nat -> R) : Prop := {
  jn_0 : x (dim0 d) = INR (Nat.b2n (sign0 d));
  jn_1 : y (dim1 d) = INR (Nat.b2n (sign1 d));
  jn_else : forall k, (k < nd)%nat -> k <> dim0 d -> k <> dim1 d -> y k = x k;
  jn_cross : dim0 d <> dim1 d -> y (dim0 d) = if Bool.eqb (sign0 d) (sign1 d) then x (dim1 d) else 1 - x (dim1 d) }.
Ltac each_direction d A := let a := fresh "a" in let b := fresh "b" in let s := fresh "s" in let t := fresh "t" in destruct d as [a b s t]; let A0 := fresh in let A1 := fresh in let A2 := fresh in destruct A as (A0 & A1 & A2); cbn [dim0 dim1 sign0 sign1] in *;
  destruct a as [|[|[|a]]]; try lia; destruct b as [|[|[|b]]]; try lia; destruct s, t; try (exfalso; destruct A2; congruence).
Ltac at_vertex V n := let H := fresh "V" in pose proof (V n) as H; cbn in H; first [specialize (H ltac:(split; [lia|reflexivity])) | clear H].
Ltac at_vertices V := at_vertex V 0%nat; at_vertex V 1%nat; at_vertex V 2%nat; at_vertex V 3%nat; at_vertex V 4%nat; at_vertex V 5%nat; at_vertex V 6%nat; at_vertex V 7%nat; clear V.
Ltac at_dim JE n := let H := fresh "E" in pose proof (JE n) as H; first [specialize (H ltac:(lia) ltac:(lia) ltac:(lia)) | clear H].
Ltac at_dims JE := at_dim JE 0%nat; at_dim JE 1%nat; at_dim JE 2%nat; clear JE.
Ltac at_values v0 x y := repeat match goal with H : v0 _ _ = _ |- _ => rewrite H; clear H end; repeat match goal with H : y _ = _ |- _ => rewrite H; clear H | H : x _ = _ |- _ => rewrite H; clear H end.
Lemma joined_value nd d v0 v1 x y r : (2 <= nd <= 3)%nat -> allowed nd d -> meet nd d v0 v1 -> joined nd d x y -> (r < nd)%nat -> multilinear nd (v0 r) x = multilinear nd (v1 r) y.
Proof.
  intros N A M [J0 J1 JE JC] RR. pose proof (fun u U => partner_meets nd d v0 v1 u r N A M U RR) as V. unfold on_face in V. clear M. assert (H : nd = 2%nat \/ nd = 3%nat) by lia. destruct H as [-> | ->].
  all: each_direction d A; cbn [dim0 dim1 sign0 sign1 Bool.eqb Nat.b2n INR] in *.
  all: at_vertices V; at_dims JE; try (specialize (JC ltac:(lia))).
  all: unfold multilinear, vertex_weight; cbn; at_values v0 x y; ring.
Qed.
(** ** tangents *)
Lemma joined_tang nd d v0 v1 x y r c : (2 <= nd <= 3)%nat -> allowed nd d -> meet nd d v0 v1 -> joined nd d x y -> (r < nd)%nat -> (c < nd)%nat -> c <> dim0 d -> c <> dim1 d -> tang nd (v0 r) c x = tang nd (v1 r) c y.
Proof.
  intros N A M J RR C C0 C1. assert (S : forall t, multilinear nd (v0 r) (setx x c t) = multilinear nd (v1 r) (setx y c t)).
  { intros t. apply (joined_value nd d); try assumption. destruct J as [J0 J1 JE JC]. unfold setx. constructor.
    - destruct (Nat.eqb_spec (dim0 d) c); [congruence|exact J0].
    - destruct (Nat.eqb_spec (dim1 d) c); [congruence|exact J1].
    - intros k K K0 K1. destruct (k =? c)%nat; auto.
    - intros D. destruct (Nat.eqb_spec (dim0 d) c); [congruence|]. destruct (Nat.eqb_spec (dim1 d) c); [congruence|auto]. }
  unfold tang. now rewrite !S.
Qed.
Lemma joined_cross nd d v0 v1 x y r : (2 <= nd <= 3)%nat -> allowed nd d -> meet nd d v0 v1 -> joined nd d x y -> (r < nd)%nat -> dim0 d <> dim1 d ->
  tang nd (v0 r) (dim1 d) x = (if Bool.eqb (sign0 d) (sign1 d) then 1 else -1) * tang nd (v1 r) (dim0 d) y.
Proof.
  intros N A M J RR D. assert (S : forall t, multilinear nd (v0 r) (setx x (dim1 d) t) = multilinear nd (v1 r) (setx y (dim0 d) (if Bool.eqb (sign0 d) (sign1 d) then t else 1 - t))).
  { intros t. apply (joined_value nd d); try assumption. destruct J as [J0 J1 JE JC]. unfold setx. constructor.
    - destruct (Nat.eqb_spec (dim0 d) (dim1 d)); [congruence|exact J0].
    - destruct (Nat.eqb_spec (dim1 d) (dim0 d)); [congruence|exact J1].
    - intros k K K0 K1. destruct (Nat.eqb_spec k (dim0 d)); [congruence|]. destruct (Nat.eqb_spec k (dim1 d)); [congruence|auto].
    - intros _. rewrite !Nat.eqb_refl. reflexivity. }
  unfold tang. rewrite !S. destruct (Bool.eqb (sign0 d) (sign1 d)); [ring|]. replace (1 - 1) with 0 by ring. replace (1 - 0) with 1 by ring. ring.
Qed.
(** ** normals *)
Lemma joined_normal nd d v0 v1 s x y j : (2 <= nd <= 3)%nat -> allowed nd d -> meet nd d v0 v1 -> joined nd d x y -> (j < nd)%nat ->
  flip_sign d false * cof nd v0 s (dim0 d) j x = flip_sign d true * cof nd v1 s (dim1 d) j y.
Proof.
  intros N A M J JJ.
  assert (T : forall r c, (r < nd)%nat -> (c < nd)%nat -> c <> dim0 d -> c <> dim1 d -> tang nd (v0 r) c x = tang nd (v1 r) c y) by (intros; now apply (joined_tang nd d)).
  assert (K : forall r, (r < nd)%nat -> dim0 d <> dim1 d -> tang nd (v0 r) (dim1 d) x = (if Bool.eqb (sign0 d) (sign1 d) then 1 else -1) * tang nd (v1 r) (dim0 d) y) by (intros; now apply joined_cross).
  clear M J. unfold cof. assert (H : nd = 2%nat \/ nd = 3%nat) by lia. destruct H as [-> | ->].
  - each_direction d A; cbn [dim0 dim1 sign0 sign1 Bool.eqb] in *; unfold flip_sign, flip_normal, face_sign; cbn [dim0 dim1 sign0 sign1 Bool.eqb].
    all: destruct j as [|[|j]]; try lia; unfold determinant, unit_col; cbn [Nat.eqb]; rewrite ?(fun r R => T r 0%nat R) by lia; rewrite ?(fun r R => T r 1%nat R) by lia; rewrite ?K by lia; unfold Rdiv; ring.
  - each_direction d A; cbn [dim0 dim1 sign0 sign1 Bool.eqb] in *; unfold flip_sign, flip_normal, face_sign; cbn [dim0 dim1 sign0 sign1 Bool.eqb].
    all: destruct j as [|[|[|j]]]; try lia; unfold determinant, unit_col; cbn [Nat.eqb]; rewrite ?(fun r R => T r 0%nat R) by lia; rewrite ?(fun r R => T r 1%nat R) by lia; rewrite ?(fun r R => T r 2%nat R) by lia; rewrite ?K by lia; unfold Rdiv; ring.
Qed.
