(** Reading a mesh file back, part 1: the single steps. *)
From Coq Require Import ZArith List Bool Reals Permutation Lia.
From Verif Require Import Outcome Math_Model Math_Thm Loop Connection_Model Mesh_Model Mesh_Spec Mesh_Proofs Mesh_Proofs2 Mesh_Proofs3 Mesh_Proofs4 Mesh_Proofs5 Mesh_Proofs6.
Import ListNotations.
Local Open Scope Z_scope.
Local Arguments i_face : simpl never.
Local Arguments face_number : simpl never.
Local Arguments Nat.ltb : simpl never.

(** What does not change while connections are read. *)
Definition frame (m m' : mesh) : Prop :=
  n_dim m' = n_dim m /\ n_bc m' = n_bc m /\ covered m' = covered m /\ forall a, record m' a = record m a.
Lemma frame_refl : forall m, frame m m. Proof. now repeat split. Qed.
Lemma frame_trans : forall a b c, frame a b -> frame b c -> frame a c.
Proof. intros a b c (A & B & C & D) (A' & B' & C' & D'). repeat split; try congruence. Qed.

Definition elems_of (m : mesh) := (elems (car m), elems (def m)).
Definition cons_of (d : bool) (m : mesh) := map plain_con (cons (of_type d m)).
Definition refs_of (d : bool) (m : mesh) := map (map plain_ref) (refs (of_type d m)).
Definition bounds_of (d : bool) (m : mesh) := map plain_bound (bounds (of_type d m)).

Lemma new_con_done : forall d a0 a1 dr m, (n_dim m <= 3)%nat -> (dim0 dr < n_dim m)%nat -> (dim1 dr < n_dim m)%nat ->
  exists m', new_con d a0 a1 dr m = Done m' tt /\ frame m m' /\ elems_of m' = elems_of m
    /\ cons_of d m' = cons_of d m ++ [(a0, a1, dr)] /\ cons_of (negb d) m' = cons_of (negb d) m
    /\ (forall e, refs_of e m' = refs_of e m) /\ (forall e, bounds_of e m' = bounds_of e m).
Proof.
  intros d a0 a1 dr m N D0 D1. unfold new_con, set_face. rewrite !(proj2 (Nat.ltb_lt _ _)) by assumption. cbn [andb]. rewrite !i_face_number. cbn [i_dim face_sign].
  pose proof (face_number_bound (dim0 dr) (sign0 dr) 3). pose proof (face_number_bound (dim1 dr) (sign1 dr) 3).
  rewrite !(proj2 (Nat.ltb_lt _ _)) by lia. eexists. split; [reflexivity|]. split; [now destruct d|]. split; [now destruct d|]. unfold cons_of, refs_of, bounds_of.
  split; [destruct d; cbn; now rewrite map_app|]. split; [now destruct d|]. split; intros []; now destruct d.
Qed.
Lemma new_bound_done : forall d a i sg bc m, (i < 3)%nat ->
  exists m', new_bound d a i sg bc m = Done m' tt /\ frame m m' /\ elems_of m' = elems_of m
    /\ bounds_of d m' = bounds_of d m ++ [(a, i, sg, bc)] /\ bounds_of (negb d) m' = bounds_of (negb d) m
    /\ (forall e, refs_of e m' = refs_of e m) /\ (forall e, cons_of e m' = cons_of e m).
Proof.
  intros d a i sg bc m N. rewrite new_bound_eq by exact N. eexists. split; [reflexivity|]. unfold add_bound, cons_of, refs_of, bounds_of. split; [now destruct d|]. split; [now destruct d|].
  split; [destruct d; cbn; now rewrite map_app|]. split; [now destruct d|]. split; intros []; now destruct d.
Qed.

Lemma fine_cons_bound : forall nd d rev str n r, refined_connection nd d rev str n = Ok r -> forall i, In i (fine_cons r) -> (i < n)%nat.
Proof.
  intros nd d rev str n r. unfold refined_connection.
  destruct (n =? 0)%nat; [discriminate|]. destruct (coarse_stretch d str) as [cstr| | |]; try discriminate. cbn [bind].
  match goal with |- context [ofold ?f ?l ?s] => destruct (ofold f l s) as [[nf any]| | |] end; try discriminate. cbn [bind].
  destruct (negb _); [discriminate|]. destruct (face_vertex_inds nd d) as [pi| | |]; try discriminate. cbn [bind].
  destruct (vertex_inds nd d) as [vi| | |]; try discriminate. cbn [bind].
  match goal with |- context [ofold ?f ?l []] => destruct (ofold f l []) as [ms| | |] end; try discriminate. cbn [bind].
  match goal with |- context [ofold ?f ?l ([], ?x)] => set (F := f); set (L := l); set (I := ([], x) : list nat * _) end.
  assert (H : forall L s s', ofold F L s = Ok s' -> (forall i, In i (fst s) -> (i < n)%nat) -> forall i, In i (fst s') -> (i < n)%nat).
  { clear. induction L as [|x L IH]; intros s s'; cbn [ofold]; [intros E; now injection E as <-|]. destruct (F x s) as [s1| | |] eqn:E; try discriminate. intros R P. apply (IH s1 s' R). revert E.
    unfold F. destruct (aget pi x) as [p| | |]; try discriminate. cbn [bind].
    match goal with |- context [bind ?u _] => destruct u as [ind1| | |] end; try discriminate. cbn [bind].
    destruct (_ && _)%bool eqn:B; [|discriminate]. apply andb_prop in B. destruct B as [B1 B2]. apply Z.leb_le in B1. apply Z.ltb_lt in B2.
    match goal with |- context [bind ?u _] => destruct u as [ff| | |] end; try discriminate. cbn [bind].
    intros H. injection H as <-. cbn [fst]. intros i J. apply in_app_or in J. destruct J as [J|[<-|[]]]; [now apply P|lia]. }
  destruct (ofold F L I) as [[cs fine]| | |] eqn:E; try discriminate. cbn [bind]. intros R. injection R as <-. cbn [fine_cons]. apply (H _ _ _ E). cbn. intros i [].
Qed.
Lemma select_nth : forall A (l : list A) d inds, (forall i, In i inds -> (i < length l)%nat) -> select l inds = Some (map (fun i => nth i l d) inds).
Proof.
  intros A l d. induction inds as [|i inds IH]; intros H; [reflexivity|]. cbn. rewrite (nth_error_nth' l d) by (apply H; now left). rewrite IH by (intros; apply H; now right). reflexivity.
Qed.
Lemma append_at_map : forall A B (f : A -> B) i x l l', append_at i x l = Some l' -> append_at i (f x) (map (map f) l) = Some (map (map f) l').
Proof.
  intros A B f i x l. revert i. induction l as [|y l IH]; intros [|i] l' H; cbn in *; try discriminate.
  - injection H as <-. cbn. now rewrite map_app.
  - destruct (append_at i x l) as [r|] eqn:E; [|discriminate]. injection H as <-. now rewrite (IH i r E).
Qed.
Lemma new_ref_done : forall (d : bool) slot coarse fine dr rev str m r, (n_dim m <= 3)%nat -> (dim0 dr < n_dim m)%nat -> (dim1 dr < n_dim m)%nat ->
  refined_connection (n_dim m) dr rev str (length fine) = Ok r -> length (refs (of_type d m)) = 3%nat -> (slot < 3)%nat ->
  exists m', new_ref d slot coarse fine dr rev str m = Done m' tt /\ frame m m' /\ elems_of m' = elems_of m
    /\ append_at slot (coarse, map (fun i => nth i fine (false, 0)) (fine_cons r), dr, rev, str) (refs_of d m) = Some (refs_of d m')
    /\ refs_of (negb d) m' = refs_of (negb d) m /\ (forall e, length (refs (of_type e m')) = length (refs (of_type e m)))
    /\ (forall e, cons_of e m' = cons_of e m) /\ (forall e, bounds_of e m' = bounds_of e m).
Proof.
  intros d slot coarse fine dr rev str m r N D0 D1 R L S. unfold new_ref. rewrite (proj2 (Nat.ltb_lt slot 3)) by exact S. rewrite !(proj2 (Nat.ltb_lt _ (n_dim m))) by assumption. cbn [andb].
  assert (B : forall b, (i_face dr b < 6)%nat).
  { intros b. rewrite i_face_number. pose proof (face_number_bound (i_dim dr b) (face_sign dr b) 3). destruct b; cbn [i_dim] in *; lia. }
  unfold set_face at 1. rewrite (proj2 (Nat.ltb_lt _ 6)) by apply B. rewrite R. rewrite (select_nth _ fine (false, 0)) by exact (fine_cons_bound _ _ _ _ _ _ R).
  set (l := map _ (fine_cons r)). match goal with |- context [set_fine l ?j ?id ?k ?m1] => destruct (set_fine_spec l j id k m1 (B _)) as (F & -> & _) end.
  set (m2 := with_faces F _). assert (T : of_type d m2 = of_type d m) by now destruct d. rewrite T.
  destruct (append_at_some _ slot (mk_ref (next_id m) coarse l dr rev str) (refs (of_type d m))) as [rs E]; [lia|]. rewrite E.
  eexists. split; [reflexivity|]. split; [now destruct d|]. split; [now destruct d|]. unfold refs_of, cons_of, bounds_of. split.
  { apply (append_at_map _ _ plain_ref) in E. unfold plain_ref at 1, rename_ref in E. cbn [r_coarse r_fine r_dir r_rev r_str] in E. rewrite map_id in E. rewrite E. f_equal. now destruct d. }
  split; [now destruct d|]. split; [|split; intros []; now destruct d]. apply append_at_spec in E. destruct E as (E & _). intros []; destruct d; cbn; auto.
Qed.
