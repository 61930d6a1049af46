(** Theorems about the connections of meshes (C35, C36, C72, C73). *)
From Coq Require Import ZArith List Bool Reals Permutation Lia.
From Verif Require Import Outcome Connection_Model Mesh_Model Mesh_Spec Mesh_Proofs Mesh_Proofs2 Mesh_Proofs5 Mesh_Proofs6 Mesh_Proofs10.
Import ListNotations.
Local Open Scope Z_scope.

(** C35. For every mesh that calls of the interface, refused or not, can produce: [valid] is defined, changes neither elements nor
    connections, returns how many connections there are too many and how many faces are not connected, and both numbers are 0 exactly if
    every face of every element takes part in one connection. *)
Theorem mesh_valid : forall nd cov m, (1 <= nd <= 3)%nat -> reachable nd cov m ->
  exists m' redundant missing, valid m = Done m' (Z.of_nat redundant, Z.of_nat missing)
    /\ redundant = total (fun f => uses m f - 1)%nat (all_faces m)
    /\ missing = length (filter (fun f => Nat.eqb (uses m f) 0) (all_faces m))
    /\ same_elements m m' /\ same_connections m m' /\ faces m' = faces m
    /\ (redundant = 0%nat /\ missing = 0%nat <-> forall f, In f (all_faces m) -> uses m f = 1%nat).
Proof.
  intros nd cov m N R. pose proof (reachable_wf _ _ _ N R) as W. destruct (valid_spec m W) as (m' & V & c & ->). do 3 eexists. split; [exact V|].
  split; [reflexivity|]. split.
  { clear V. unfold total. induction (all_faces m) as [|f l IH]; [reflexivity|]. cbn [map fold_right filter]. destruct (Nat.eqb (uses m f) 0); cbn [length]; now rewrite <- IH. }
  split; [repeat split|]. split; [repeat split|]. split; [reflexivity|]. rewrite !total_zero. split.
  - intros [A B] f F. specialize (A f F). specialize (B f F). cbn in A, B. destruct (Nat.eqb_spec (uses m f) 0); lia.
  - intros H. split; intros f F; rewrite (H f F); reflexivity.
Qed.
Print Assumptions mesh_valid.

(** C35. [connect_rest] is defined, keeps all elements and connections and the face data of connected faces, appends boundary connections with
    the given boundary condition, and afterwards exactly the faces that were not connected have gained one connection; so [valid] finds no
    unconnected face and as many redundant connections as before. *)
Theorem mesh_connect_rest : forall nd cov m bc, (1 <= nd <= 3)%nat -> reachable nd cov m ->
  exists m' new_car new_def, connect_rest bc m = Done m' tt
    /\ same_elements m m' /\ cons (car m') = cons (car m) /\ cons (def m') = cons (def m) /\ refs (car m') = refs (car m) /\ refs (def m') = refs (def m)
    /\ bounds (car m') = bounds (car m) ++ new_car /\ bounds (def m') = bounds (def m) ++ new_def
    /\ (forall c, In c (new_car ++ new_def) -> b_bc c = bc)
    /\ (forall f, In f (all_faces m) -> uses m' f = Nat.max 1 (uses m f))
    /\ (forall f, ~ In f (all_faces m) -> uses m' f = uses m f)
    /\ (forall a i, (uses m (a, i) > 0)%nat -> faces m' a i = faces m a i)
    /\ exists m'' redundant, valid m' = Done m'' (redundant, 0) /\ redundant = Z.of_nat (total (fun f => uses m f - 1)%nat (all_faces m)).
Proof.
  intros nd cov m bc N R. pose proof (reachable_wf _ _ _ N R) as W. destruct (connect_rest_spec bc m W) as (m' & nc & ndf & new & c & E & W' & G & P & C & D & B).
  pose proof (connect_rest_uses bc m m' W E) as U. destruct G as (SE & PE & PF & PU). pose proof (same_elems_elements _ _ SE) as EL. destruct SE as (ND & _).
  assert (AF : all_faces m' = all_faces m) by (unfold all_faces; now rewrite EL, ND). exists m', nc, ndf. split; [exact E|].
  split; [unfold same_elements; now rewrite C, D, ND|]. rewrite C, D. repeat (split; [reflexivity|]). split; [intros c0 I; apply B; now apply in_app_or|].
  split; [intros f; apply (U f)|]. split; [intros f; apply (U f)|]. split.
  - intros a i H. apply (PU a i). intros I. apply (Permutation_in _ P), filter_In in I. destruct I as [_ I]. apply Nat.eqb_eq in I. lia.
  - destruct (valid_spec m' W') as (m'' & V & _). exists m''. eexists. rewrite V, AF. split; [f_equal; f_equal|].
    + change 0 with (Z.of_nat 0). f_equal. apply total_zero. intros f F. rewrite (proj1 (U f) F). destruct (Nat.eqb_spec (Nat.max 1 (uses m f)) 0); lia.
    + f_equal. unfold total. f_equal. apply map_ext_in. intros f F. rewrite (proj1 (U f) F). lia.
Qed.
Print Assumptions mesh_connect_rest.

(** C72. If no face has ever been connected twice, the face data of every element points into the storage of the connection its face
    takes part in, and faces that take part in no connection have none. *)
Theorem mesh_pointers_partial : forall nd cov m, (1 <= nd <= 3)%nat -> reachable_once nd cov m ->
  forall a i s, faces m a i = Some s <-> In ((a, i), s) (ends m).
Proof. intros nd cov m N R. apply (reachable_once_ok nd cov m N R). Qed.
Print Assumptions mesh_pointers_partial.

(** C72. But a mesh may be [valid], i.e. every face takes part in one connection, and yet a face has no data: the connection that was
    added last to a face takes the pointer with it when it is deleted. *)
Definition history (l : list op) (m : mesh) : mesh := fold_left (fun m o => match call o m with Done m' _ => m' | Refused m' => m' | Undefined => m end) l m.
Lemma history_reachable : forall l nd cov m, reachable nd cov m -> (forall k, (k < length l)%nat -> call (nth k l Valid) (history (firstn k l) m) <> Undefined) -> reachable nd cov (history l m).
Proof.
  induction l as [|o l IH]; intros nd cov m R H; [exact R|]. cbn [history fold_left]. pose proof (H 0%nat) as H0. cbn in H0.
  destruct (call o m) as [m' []|m'|] eqn:E; [| |exfalso; apply H0; [lia|reflexivity]].
  - apply IH; [exact (reach_done nd cov m o m' R E)|]. intros k K. specialize (H (S k)). cbn in H. rewrite E in H. apply H. lia.
  - apply IH; [exact (reach_refused nd cov m o m' R E)|]. intros k K. specialize (H (S k)). cbn in H. rewrite E in H. apply H. lia.
Qed.
Definition twice : list op := [AddElement false 0 [0]; AddBoundaryCondition; AddBoundaryCondition;
  ConnectBoundary 0 false 0 0 false 0; ConnectBoundary 0 false 0 0 true 0; ConnectBoundary 0 false 0 0 true 1; DisconnectBoundary 1].
Theorem mesh_pointers_refuted : ~ (forall nd cov m m', (1 <= nd <= 3)%nat -> reachable nd cov m -> valid m = Done m' (0, 0) ->
  forall f, In f (all_faces m) -> faces m (fst f) (snd f) <> None).
Proof.
  intros H. assert (R : reachable 1 None (history twice (new_mesh 1 None))).
  { apply history_reachable; [constructor|]. intros k K. cbn in K. do 7 (destruct k as [|k]; [vm_compute; discriminate|]). lia. }
  destruct (mesh_valid 1 None _ ltac:(lia) R) as (m' & r & mi & V & -> & -> & _).
  apply (H 1%nat None (history twice (new_mesh 1 None)) m' ltac:(lia) R V ((false, 0), 1%nat)); vm_compute; auto.
Qed.
Print Assumptions mesh_pointers_refuted.

(** C73. What [cleanup] does to a mesh with a tree: it deletes the elements whose [record] is not 0, the connections these take part in, and the
    boundary connections of faces covered by an element of the tree, and nothing else; afterwards connections refer to existing elements
    only. Without tree it changes nothing. *)
Theorem mesh_cleanup : forall nd m, (1 <= nd <= 3)%nat ->
  (forall cov, reachable nd (Some cov) m -> covered m = Some cov ->
     remaining (fun a => negb (record m a =? 0)) cov false (car m) (car (purge m))
     /\ remaining (fun a => negb (record m a =? 0)) cov true (def m) (def (purge m))
     /\ forall a, touches (purge m) a -> In a (elements (purge m)))
  /\ (covered m = None -> purge m = m).
Proof.
  intros nd m N. split.
  - intros cov R C. pose proof (reachable_wf _ _ _ N R) as W. split; [exact (purge_types m cov W C false)|]. split; [exact (purge_types m cov W C true)|].
    intros a (i & I). apply in_map_iff in I. destruct I as ([f s] & E & I). destruct (purge_spec m W) as (W' & _); [congruence|]. cbn in E. subst f. exact (wf_in _ W' _ _ I).
  - intros C. unfold purge. now rewrite C.
Qed.
Print Assumptions mesh_cleanup.

(** C73. [record] is 0 for new elements, but [write] leaves other values there. So writing a mesh with a tree to a file and then calling
    [cleanup] deletes elements that nobody wanted deleted. *)
Theorem mesh_cleanup_refuted : exists nd cov m, (1 <= nd <= 3)%nat /\ reachable nd (Some cov) m /\ elements (purge m) = elements m
  /\ let m' := fst (write m) in elements m' = elements m /\ length (elements m) = 2%nat /\ length (elements (purge m')) = 1%nat.
Proof.
  exists 1%nat, (fun _ _ => false), (history [AddElement false 1 [0]; AddElement false 1 [1]] (new_mesh 1 (Some (fun _ _ => false)))). split; [lia|]. split; [|vm_compute; auto].
  apply history_reachable; [constructor|]. intros k K. cbn in K. do 2 (destruct k as [|k]; [vm_compute; discriminate|]). lia.
Qed.
Print Assumptions mesh_cleanup_refuted.

(** C36. Writing any mesh and reading the file back, with enough boundary conditions and with or without a tree that covers none of the
    faces on the boundary, gives the same elements with the same node adjustments, and the same connections, except that the fine
    elements of refined connections between deformed elements are permuted by the constructor of refined connections once more. *)
Theorem mesh_file : forall nd cov m bcs cov', (1 <= nd <= 3)%nat -> reachable nd cov m -> storable m bcs ->
  (forall cv c, cov' = Some cv -> In c (bounds (car m) ++ bounds (def m)) -> cv (renumber m (b_elem c)) (face_number (b_dim c) (b_sign c)) = false) ->
  exists m', read_mesh (snd (write m)) bcs cov' = Done m' tt /\ copy_with (reorder (n_dim m)) (renumber m) m m'.
Proof. intros nd cov m bcs cov' N R. exact (read_written m bcs cov' (reachable_wf _ _ _ N R)). Qed.
Print Assumptions mesh_file.

(** C36. So the mesh read is the mesh written if refined connections between deformed elements join faces of the same dimension, or faces of
    the same sign whose dimensions are not 0 and 2. *)
Theorem mesh_file_partial : forall nd cov m bcs cov', (1 <= nd <= 3)%nat -> reachable nd cov m -> storable m bcs ->
  (forall cv c, cov' = Some cv -> In c (bounds (car m) ++ bounds (def m)) -> cv (renumber m (b_elem c)) (face_number (b_dim c) (b_sign c)) = false) ->
  (forall l c, In l (refs (def m)) -> In c l -> dim0 (r_dir c) = dim1 (r_dir c) \/ (sign0 (r_dir c) = sign1 (r_dir c) /\ (dim0 (r_dir c) + dim1 (r_dir c) <> 2)%nat)) ->
  exists m', read_mesh (snd (write m)) bcs cov' = Done m' tt /\ copy (renumber m) m m'.
Proof.
  intros nd cov m bcs cov' N R S C K. pose proof (reachable_wf _ _ _ N R) as W. destruct (mesh_file nd cov m bcs cov' N R S C) as (m' & E & P). exists m'. split; [exact E|].
  unfold copy. destruct P as (P1 & P2 & P3 & P4 & P5 & P6 & P7 & P8 & P9 & P10). repeat (split; [assumption|]). split; [|exact P10]. rewrite P9. apply map_ext_in. intros l L. apply map_ext_in. intros c I.
  unfold rename_ref. now rewrite (reorder_kept m bcs c l W S L I (K l c L I)).
Qed.
Print Assumptions mesh_file_partial.

(** C36. In general it is not: here the two fine elements have changed places. *)
Definition hanging : list op := [AddElement true 0 [0; 0]; AddElement true 1 [2; 0]; AddElement true 1 [2; 1]; ConnectHanging 0 0 [1; 2] (mk_dir 0 1 true false) true [true; true] false false].
Theorem mesh_file_refuted : ~ (forall nd m bcs, (1 <= nd <= 3)%nat -> reachable nd None m -> storable m bcs ->
  exists m' p, read_mesh (snd (write m)) bcs None = Done m' tt /\ copy p m m').
Proof.
  intros H. destruct (H 2%nat (history hanging (new_mesh 2 None)) 0%nat) as (m' & p & E & P).
  - lia.
  - apply history_reachable; [constructor|]. intros k K. cbn in K. do 4 (destruct k as [|k]; [vm_compute; discriminate|]). lia.
  - vm_compute history. split; cbn.
    + intros c [].
    + intros l c [<-|[<-|[<-|[]]]] [].
    + intros l c k [<-|[<-|[<-|[]]]] []; [|contradiction]. subst c. cbn. destruct k as [|[|[|k]]]; discriminate.
  - vm_compute in E. injection E as <-. destruct P as (_ & _ & P3 & _ & _ & _ & _ & _ & P9 & _). vm_compute in P3, P9. injection P3 as Q0 Q1 Q2. injection P9. intros. congruence.
Qed.
Print Assumptions mesh_file_refuted.

(** Two elements joined at one face; [valid] counts the open ends, [connect_rest] closes them; connecting the joined face
    again is noticed. *)
Definition pair_of_elements : mesh := history [AddElement false 0 [0; 0]; AddElement true 0 [1; 0]; ConnectCartesian 0 0 0 0 false true; AddBoundaryCondition] (new_mesh 2 None).
Definition counts (r : result (Z * Z)) : option (Z * Z) := match r with Done _ x => Some x | _ => None end.
Example mesh_example : counts (valid pair_of_elements) = Some (0, 6)
  /\ counts (valid (history [ConnectRest 0] pair_of_elements)) = Some (0, 0)
  /\ counts (valid (history [ConnectRest 0; ConnectBoundary 0 false 0 0 true 0] pair_of_elements)) = Some (1, 0)
  /\ length (bounds (car (history [ConnectRest 0] pair_of_elements))) = 3%nat
  /\ faces pair_of_elements (false, 0) 1%nat = Some (0, 0)%nat /\ faces pair_of_elements (true, 0) 0%nat = Some (0, 1)%nat.
Proof. vm_compute. auto 10. Qed.

(** The mesh of the counterexample: what is written and what is read back; a Cartesian connection of two deformed elements comes back as a
    deformed one. *)
Definition fines (r : result unit) : option (list (list addr)) := match r with Done m _ => Some (map r_fine (concat (refs (def m)))) | _ => None end.
Example mesh_file_example : map r_fine (concat (refs (def (history hanging (new_mesh 2 None))))) = [[(true, 2); (true, 1)]]
  /\ fines (read_mesh (snd (write (history hanging (new_mesh 2 None)))) 0 None) = Some [[(true, 1); (true, 2)]]
  /\ match read_mesh (snd (write (history [AddElement true 0 [0]; AddElement true 0 [1]; ConnectCartesian 0 0 1 0 true true] (new_mesh 1 None)))) 0 None with
     | Done m _ => map plain_con (cons (def m)) = [((true, 0), (true, 1), cart_to_dir 0)] /\ cons (car m) = []
     | _ => False
     end.
Proof. vm_compute. auto 10. Qed.
