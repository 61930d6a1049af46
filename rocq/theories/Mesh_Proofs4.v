(** Deletion, histories of calls, [connect_rest]. *)
From Coq Require Import ZArith List Bool Reals Permutation Lia.
From Verif Require Import Outcome Math_Model Math_Spec Math_Thm ListUtil Loop Connection_Model Mesh_Model Mesh_Spec Mesh_Proofs Mesh_Proofs2 Mesh_Proofs3.
Import ListNotations.
Local Open Scope Z_scope.
Local Arguments face_dec : simpl never.
Local Arguments i_face : simpl never.
Local Arguments Nat.ltb : simpl never.
Local Arguments Nat.leb : simpl never.
Local Arguments face_number : simpl never.

(** *** destructors *)
Definition clears (F G : addr -> nat -> option storage) (l : list face) : Prop :=
  (forall a i, In (a, i) l -> F a i = None) /\ (forall a i, ~ In (a, i) l -> F a i = G a i).
Lemma clear_one : forall a j m, exists F, clear a j m = with_faces F m /\ clears F (faces m) [(a, j)].
Proof.
  intros a j m. exists (put2 (faces m) a j None). split; [reflexivity|]. split; intros b i; rewrite put2_spec; cbn.
  - intros [E|[]]. destruct (face_dec _ _); congruence.
  - intros N. destruct (face_dec _ _) as [E|]; [|reflexivity]. exfalso. apply N. left. congruence.
Qed.
Lemma clears_trans : forall F G H l l', clears F G l -> clears G H l' -> clears F H (l' ++ l).
Proof.
  intros F G H l l' (N & S) (N' & S'). split; intros a i; rewrite in_app_iff; intros I.
  - destruct (in_dec face_dec (a, i) l); [auto|]. rewrite S by assumption. apply N'. tauto.
  - rewrite S, S' by tauto. reflexivity.
Qed.
Lemma clear_fold : forall A (step : mesh -> A -> mesh) (g : A -> list face) l,
  (forall m x, exists F, step m x = with_faces F m /\ clears F (faces m) (g x)) ->
  forall m, exists F, fold_left step l m = with_faces F m /\ clears F (faces m) (flat_map g l).
Proof.
  intros A step g l H. induction l as [|x l IH]; intros m; cbn.
  - exists (faces m). split; [now destruct m|]. split; [intros a i []|reflexivity].
  - destruct (H m x) as (F & -> & C). destruct (IH (with_faces F m)) as (G & -> & C'). exists G. split; [reflexivity|]. exact (clears_trans _ _ _ _ _ C' C).
Qed.
Lemma drop_bound_clears : forall c m, exists F, drop_bound c m = with_faces F m /\ clears F (faces m) (map fst (bound_ends c)).
Proof. intros c m. rewrite bound_faces. apply clear_one. Qed.
Lemma drop_con_clears : forall c m, exists F, drop_con c m = with_faces F m /\ clears F (faces m) (map fst (con_ends c)).
Proof.
  intros c m. rewrite con_faces. unfold drop_con. destruct (clear_one (c_elem0 c) (i_face (c_dir c) false) m) as (F & -> & C).
  destruct (clear_one (c_elem1 c) (i_face (c_dir c) true) (with_faces F m)) as (G & -> & C'). exists G. split; [reflexivity|]. exact (clears_trans _ _ _ _ _ C' C).
Qed.
Lemma flat_map_single : forall A B (f : A -> B) l, flat_map (fun x => [f x]) l = map f l.
Proof. intros A B f l. induction l; cbn; congruence. Qed.
Lemma drop_ref_clears : forall c m, exists F, drop_ref c m = with_faces F m /\ clears F (faces m) (map fst (ref_ends c)).
Proof.
  intros c m. rewrite ref_faces. unfold drop_ref. destruct (clear_one (r_coarse c) (i_face (r_dir c) (r_rev c)) m) as (F & -> & C).
  destruct (clear_fold _ (fun m a => clear a (i_face (r_dir c) (negb (r_rev c))) m) (fun a => [(a, i_face (r_dir c) (negb (r_rev c)))]) (r_fine c)) with (m := with_faces F m) as (G & -> & C').
  { intros. apply clear_one. }
  exists G. split; [reflexivity|]. rewrite flat_map_single in C'. exact (clears_trans _ _ _ _ _ C' C).
Qed.

Lemma filter_perm : forall A (p : A -> bool) l, Permutation l (filter p l ++ filter (fun x => negb (p x)) l).
Proof.
  intros A p l. induction l as [|x l IH]; cbn; [reflexivity|]. destruct (p x); cbn; [now constructor|]. rewrite IH at 1. apply Permutation_middle.
Qed.
Lemma concat_filter : forall A (p : A -> bool) l, concat (map (filter p) l) = filter p (concat l).
Proof. intros A p l. induction l as [|x l IH]; cbn; [reflexivity|]. now rewrite IH, filter_app. Qed.

(** the container after an erasure *)
Definition erased (m m' : mesh) (d : bool) (t : by_type) : Prop := exists F, m' = with_faces F (with_type d t m).
Lemma erase_general : forall m d t old F, wf m -> elems t = elems (of_type d m) -> next_sn t = next_sn (of_type d m) -> wf_type (n_dim m) d t ->
  Permutation (type_ends (of_type d m)) (old ++ type_ends t) -> clears F (faces m) (map fst old) ->
  wf (with_faces F (with_type d t m)) /\ shrinks m (with_faces F (with_type d t m)) old.
Proof.
  intros m d t old F W E N T P (CN & CS).
  assert (T1 : of_type d (with_faces F (with_type d t m)) = t) by now destruct d.
  assert (T2 : of_type (negb d) (with_faces F (with_type d t m)) = of_type (negb d) m) by now destruct d.
  split.
  - apply (wf_change m _ d t W); auto. intros f s I. apply (wf_in _ W f s), (ends_in_of m d). apply (Permutation_in _ (Permutation_sym P)). apply in_or_app. now right.
  - split; [|split; [|split; assumption]].
    + unfold same_elems. cbn. repeat split; intros d'; destruct d, d'; cbn; auto.
    + rewrite (ends_of d m), (ends_of d (with_faces F (with_type d t m))), T1, T2, P. now rewrite app_assoc.
Qed.

Lemma flat_filter_perm : forall A B (f : A -> list B) p l, Permutation (flat_map f l) (flat_map f (filter p l) ++ flat_map f (filter (fun x => negb (p x)) l)).
Proof. intros A B f p l. rewrite <- flat_map_app. apply flat_map_perm, filter_perm. Qed.

Lemma erase_bounds_spec : forall p d m, wf m -> exists F, erase_bounds p d m = with_faces F (with_type d (with_bounds (filter (fun c => negb (p c)) (bounds (of_type d m))) (of_type d m)) m)
  /\ wf (erase_bounds p d m) /\ shrinks m (erase_bounds p d m) (flat_map bound_ends (filter p (bounds (of_type d m)))).
Proof.
  intros p d m W. unfold erase_bounds. set (t := with_bounds _ _). pose proof (wf_of m W d) as WT.
  destruct (clear_fold _ (fun m c => drop_bound c m) (fun c => map fst (bound_ends c)) (filter p (bounds (of_type d m)))) with (m := with_type d t m) as (F & -> & C).
  { intros. apply drop_bound_clears. }
  exists F. split; [reflexivity|]. apply erase_general; auto.
  - split; try apply WT. intros c I. cbn in I. apply filter_In in I. now apply (wt_bound _ _ _ WT).
  - unfold type_ends. cbn [t with_bounds cons bounds refs]. rewrite (flat_filter_perm _ _ bound_ends p (bounds (of_type d m))) at 1. rewrite <- app_assoc. apply Permutation_app_swap_app.
  - rewrite flat_map_map_fst. exact C.
Qed.
Lemma erase_cons_spec : forall p d m, wf m -> exists F, erase_cons p d m = with_faces F (with_type d (with_cons (filter (fun c => negb (p c)) (cons (of_type d m))) (of_type d m)) m)
  /\ wf (erase_cons p d m) /\ shrinks m (erase_cons p d m) (flat_map con_ends (filter p (cons (of_type d m)))).
Proof.
  intros p d m W. unfold erase_cons. set (t := with_cons _ _). pose proof (wf_of m W d) as WT.
  destruct (clear_fold _ (fun m c => drop_con c m) (fun c => map fst (con_ends c)) (filter p (cons (of_type d m)))) with (m := with_type d t m) as (F & -> & C).
  { intros. apply drop_con_clears. }
  exists F. split; [reflexivity|]. apply erase_general; auto.
  - split; try apply WT. intros c I. cbn in I. apply filter_In in I. now apply (wt_con _ _ _ WT).
  - unfold type_ends. cbn [t with_cons cons bounds refs]. rewrite (flat_filter_perm _ _ con_ends p (cons (of_type d m))) at 1. now rewrite <- app_assoc.
  - rewrite flat_map_map_fst. exact C.
Qed.
Lemma erase_refs_spec : forall p d m, wf m -> exists F, erase_refs p d m = with_faces F (with_type d (with_refs (map (filter (fun c => negb (p c))) (refs (of_type d m))) (of_type d m)) m)
  /\ wf (erase_refs p d m) /\ shrinks m (erase_refs p d m) (flat_map ref_ends (filter p (concat (refs (of_type d m))))).
Proof.
  intros p d m W. unfold erase_refs. set (t := with_refs _ _). pose proof (wf_of m W d) as WT.
  destruct (clear_fold _ (fun m c => drop_ref c m) (fun c => map fst (ref_ends c)) (filter p (concat (refs (of_type d m))))) with (m := with_type d t m) as (F & -> & C).
  { intros. apply drop_ref_clears. }
  exists F. split; [reflexivity|]. apply erase_general; auto.
  - split; try apply WT.
    + cbn. rewrite map_length. apply WT.
    + intros s c S I. cbn in I. change (@nil ref_con) with (filter (fun c : ref_con => negb (p c)) []) in I. rewrite map_nth in I. apply filter_In in I. now apply (wt_ref _ _ _ WT).
  - unfold type_ends. cbn [t with_refs cons bounds refs]. rewrite concat_filter. rewrite (flat_filter_perm _ _ ref_ends p (concat (refs (of_type d m)))) at 1.
    set (a := flat_map con_ends _). set (b := flat_map bound_ends _). rewrite (app_assoc a b), (app_assoc a b). apply Permutation_app_swap_app.
  - rewrite flat_map_map_fst. exact C.
Qed.

Lemma disconnect_spec : forall bc m, wf m -> wf (disconnect_boundary bc m) /\ exists old, shrinks m (disconnect_boundary bc m) old.
Proof.
  intros bc m W. unfold disconnect_boundary. destruct (erase_bounds_spec (fun c => b_bc c =? bc) false m W) as (_ & _ & W1 & S1).
  destruct (erase_bounds_spec (fun c => b_bc c =? bc) true _ W1) as (_ & _ & W2 & S2). split; [exact W2|]. eexists. exact (shrinks_trans _ _ _ _ _ S1 S2).
Qed.

(** *** deletion of elements *)
Lemma purge_connections_spec : forall d m, wf m -> let m' := purge_connections d m in
  wf m' /\ (exists old, shrinks m m' old) /\ record m' = record m /\ covered m' = covered m /\ of_type (negb d) m' = of_type (negb d) m
  /\ (forall f s, In (f, s) (type_ends (of_type d m')) -> record m (fst f) = 0).
Proof.
  intros d m W. unfold purge_connections.
  set (p1 := fun c : bound_con => (_ || _)%bool). destruct (erase_bounds_spec p1 d m W) as (F1 & E1 & W1 & S1). set (m1 := erase_bounds p1 d m) in *.
  set (p2 := fun c : con => (_ || _)%bool). destruct (erase_cons_spec p2 d m1 W1) as (F2 & E2 & W2 & S2). set (m2 := erase_cons p2 d m1) in *.
  set (p3 := fun c : ref_con => (_ || _)%bool). destruct (erase_refs_spec p3 d m2 W2) as (F3 & E3 & W3 & S3). set (m3 := erase_refs p3 d m2) in *. cbn zeta.
  assert (D1 : of_type d m1 = with_bounds (filter (fun c => negb (p1 c)) (bounds (of_type d m))) (of_type d m)) by (rewrite E1; now destruct d).
  assert (D2 : of_type d m2 = with_cons (filter (fun c => negb (p2 c)) (cons (of_type d m))) (of_type d m1)) by (rewrite E2; destruct d; cbn in *; now rewrite D1).
  assert (D3 : of_type d m3 = with_refs (map (filter (fun c => negb (p3 c))) (refs (of_type d m))) (of_type d m2)) by (rewrite E3; destruct d; cbn in *; now rewrite D2, D1).
  split; [exact W3|]. split; [eexists; exact (shrinks_trans _ _ _ _ _ S1 (shrinks_trans _ _ _ _ _ S2 S3))|].
  split; [now rewrite E3, E2, E1|]. split; [now rewrite E3, E2, E1|]. split; [rewrite E3, E2, E1; now destruct d|].
  intros f s I. rewrite D3, D2, D1 in I. unfold type_ends in I. cbn [with_refs with_cons with_bounds cons bounds refs] in I. rewrite concat_filter in I.
  assert (Z : forall a, negb (negb (record m a =? 0)) = true -> record m a = 0) by (intros a; rewrite negb_involutive; apply Z.eqb_eq).
  rewrite !in_app_iff, !in_flat_map in I. destruct I as [(c & C & J)|[(c & C & J)|(c & C & J)]]; apply filter_In in C; destruct C as [_ C];
    apply (in_map fst) in J; cbn [fst] in J.
  - unfold p2 in C. rewrite negb_orb in C. apply andb_prop in C. destruct C as [C0 C1]. rewrite con_faces in J. cbn in J. destruct J as [<-|[<-|[]]]; auto.
  - unfold p1 in C. rewrite negb_orb in C. apply andb_prop in C. destruct C as [C0 C1]. rewrite bound_faces in J. cbn in J. destruct J as [<-|[]]; auto.
  - unfold p3 in C. rewrite negb_orb in C. apply andb_prop in C. destruct C as [C0 C1]. rewrite ref_faces in J. cbn in J. destruct J as [<-|J]; [auto|].
    apply in_map_iff in J. destruct J as (a & <- & A). cbn. apply negb_true_iff in C1. destruct (record m a =? 0) eqn:E; [now apply Z.eqb_eq|]. exfalso.
    assert (X : existsb (fun a => negb (record m a =? 0)) (r_fine c) = true) by (apply existsb_exists; exists a; now rewrite E). congruence.
Qed.
