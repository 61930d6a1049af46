(** The operations keep a mesh well-formed; how they change the ends of connections and the pointers of faces. *)
From Coq Require Import ZArith List Bool Reals Permutation Lia.
From Verif Require Import Outcome Math_Model ListUtil Loop Connection_Model Mesh_Model Mesh_Spec Mesh_Proofs.
Import ListNotations.
Local Open Scope Z_scope.
Local Arguments face_dec : simpl never.
Local Arguments i_face : simpl never.
Local Arguments Nat.ltb : simpl never.
Local Arguments Nat.leb : simpl never.
Local Arguments face_number : simpl never.

(** ** number of fine connections *)
Lemma ofold_count : forall A B C (f : A -> list B * C -> outcome (list B * C)) l s s',
  (forall x s s', f x s = Ok s' -> length (fst s') = S (length (fst s))) -> ofold f l s = Ok s' -> length (fst s') = (length l + length (fst s))%nat.
Proof.
  intros A B C f l. induction l as [|x l IH]; intros s s' H; cbn.
  - intros E. injection E as <-. reflexivity.
  - destruct (f x s) as [s1| | |] eqn:E; try discriminate. intros R. rewrite (IH _ _ H R), (H _ _ _ E). lia.
Qed.
Lemma fine_cons_length : forall nd d rev str n r, refined_connection nd d rev str n = Ok r -> length (fine_cons r) = n.
Proof.
  intros nd d rev str n r. unfold refined_connection.
  destruct (n =? 0)%nat; [discriminate|]. destruct (coarse_stretch d str) as [cstr| | |]; try discriminate. cbn [bind].
  match goal with |- context [ofold ?f ?l ?s] => destruct (ofold f l s) as [[nf any]| | |] end; try discriminate. cbn [bind].
  destruct (negb _); [discriminate|]. destruct (face_vertex_inds nd d) as [pi| | |]; try discriminate. cbn [bind].
  destruct (vertex_inds nd d) as [vi| | |]; try discriminate. cbn [bind].
  match goal with |- context [ofold ?f ?l []] => destruct (ofold f l []) as [ms| | |] end; try discriminate. cbn [bind].
  match goal with |- context [ofold ?f ?l ([], ?x)] => destruct (ofold f l ([], x)) as [[cs fine]| | |] eqn:E end; try discriminate. cbn [bind].
  intros H. injection H as <-. cbn [fine_cons]. apply ofold_count in E.
  - rewrite seq_length in E. cbn in E. lia.
  - clear. intros x s s'. destruct (aget pi x) as [p| | |]; try discriminate. cbn [bind].
    match goal with |- context [bind ?u _] => destruct u as [ind1| | |] end; try discriminate. cbn [bind].
    destruct (_ && _)%bool; [|discriminate].
    match goal with |- context [bind ?u _] => destruct u as [ff| | |] end; try discriminate. cbn [bind].
    intros H. injection H as <-. cbn. rewrite app_length. cbn. lia.
Qed.
Lemma fine_count_cases : forall nd d rev a b n r, (1 <= nd <= 3)%nat -> refined_connection nd d rev [a; b] n = Ok r ->
  n = 1%nat \/ n = 2%nat \/ n = 4%nat.
Proof.
  intros nd d rev a b n r N. unfold refined_connection.
  destruct (n =? 0)%nat; [discriminate|]. destruct (coarse_stretch d [a; b]) as [cstr| | |]; try discriminate. cbn [bind].
  match goal with |- context [ofold ?f ?l ?s] => remember (ofold f l s) as o eqn:O end.
  assert (C : exists k any, o = Ok (k, any) /\ (k = 1 \/ k = 2 \/ k = 4)%nat).
  { subst o. assert (nd = 1 \/ nd = 2 \/ nd = 3)%nat as [-> | [-> | ->]] by lia; destruct a, b; cbn; eauto 10. }
  destruct C as (k & any & -> & K). cbn [bind]. destruct (Nat.eqb_spec n k); cbn [negb]; [subst; auto|discriminate].
Qed.

Lemma select_spec : forall A (l : list A) inds r, select l inds = Some r -> length r = length inds /\ forall x, In x r -> In x l.
Proof.
  intros A l inds. induction inds as [|i inds IH]; intros r; cbn.
  - intros H. injection H as <-. split; [reflexivity|intros x []].
  - destruct (nth_error l i) as [x|] eqn:E; [|discriminate]. destruct (select l inds) as [r'|]; [|discriminate]. intros H. injection H as <-.
    destruct (IH r' eq_refl) as [L I]. split; [cbn; now rewrite L|]. intros y [<-|Y]; [now apply nth_error_In in E|auto].
Qed.
Lemma append_at_spec : forall A i (x : A) l r, append_at i x l = Some r ->
  length r = length l /\ (forall s, nth s r [] = if Nat.eqb s i then nth s l [] ++ [x] else nth s l []) /\ (i < length l)%nat.
Proof.
  intros A i x l. revert i. induction l as [|y l IH]; intros [|i] r; cbn; try discriminate.
  - intros H. injection H as <-. repeat split; try (cbn; lia). intros [|s]; reflexivity.
  - destruct (append_at i x l) as [r'|] eqn:E; [|discriminate]. intros H. injection H as <-. destruct (IH i r' E) as (L & N & B).
    repeat split; try (cbn; lia). intros [|s]; [reflexivity|]. cbn. apply N.
Qed.
Lemma append_at_perm : forall A i (x : A) l r, append_at i x l = Some r -> Permutation (concat r) (x :: concat l).
Proof.
  intros A i x l. revert i. induction l as [|y l IH]; intros [|i] r; cbn; try discriminate.
  - intros H. injection H as <-. cbn. rewrite <- app_assoc. cbn. symmetry. apply Permutation_middle.
  - destruct (append_at i x l) as [r'|] eqn:E; [|discriminate]. intros H. injection H as <-. cbn. rewrite (IH i r' E). symmetry. apply Permutation_middle.
Qed.
Lemma append_at_some : forall A i (x : A) l, (i < length l)%nat -> exists r, append_at i x l = Some r.
Proof.
  intros A i x l. revert i. induction l as [|y l IH]; intros [|i]; cbn; try lia; [eauto|]. intros H.
  destruct (IH i) as [r ->]; [lia|]. eauto.
Qed.

Lemma nodup_app : forall A (l l' : list A), NoDup (l ++ l') -> NoDup l /\ NoDup l' /\ forall x, In x l -> ~ In x l'.
Proof.
  intros A l l'. induction l as [|y l IH]; cbn; intros N.
  - repeat split; [constructor|exact N|intros x []].
  - apply NoDup_cons_iff in N. destruct N as [N N']. destruct (IH N') as (L & L' & D). rewrite in_app_iff in N. repeat split; [constructor; tauto|exact L'|].
    intros x [<-|X]; [tauto|auto].
Qed.

(** ** growing and shrinking *)
Definition same_elems (m m' : mesh) : Prop := n_dim m' = n_dim m /\ (forall d, elems (of_type d m') = elems (of_type d m)) /\ (forall d, next_sn (of_type d m') = next_sn (of_type d m))
  /\ record m' = record m /\ n_bc m' = n_bc m /\ covered m' = covered m /\ face_record m' = face_record m.
Definition grows (m m' : mesh) (new : list (face * storage)) : Prop :=
  same_elems m m' /\ Permutation (ends m') (new ++ ends m)
  /\ (NoDup (map fst new) -> forall a i s, In ((a, i), s) new -> faces m' a i = Some s)
  /\ (forall a i, ~ In (a, i) (map fst new) -> faces m' a i = faces m a i).
Definition shrinks (m m' : mesh) (old : list (face * storage)) : Prop :=
  same_elems m m' /\ Permutation (ends m) (old ++ ends m')
  /\ (forall a i, In (a, i) (map fst old) -> faces m' a i = None)
  /\ (forall a i, ~ In (a, i) (map fst old) -> faces m' a i = faces m a i).
Lemma same_elems_refl : forall m, same_elems m m.
Proof. intros m. unfold same_elems. auto 10. Qed.
Lemma same_elems_trans : forall m1 m2 m3, same_elems m1 m2 -> same_elems m2 m3 -> same_elems m1 m3.
Proof. intros m1 m2 m3 (A & B & C & D & E & F & G) (A' & B' & C' & D' & E' & F' & G'). unfold same_elems. repeat split; intros; congruence. Qed.
Lemma same_elems_elements : forall m m', same_elems m m' -> elements m' = elements m.
Proof. intros m m' (_ & E & _). unfold elements, addrs. now rewrite (E false : elems (car m') = _), (E true : elems (def m') = _). Qed.
Lemma grows_refl : forall m, grows m m [].
Proof. intros m. split; [apply same_elems_refl|]. split; [reflexivity|]. split; [intros _ a i s []|reflexivity]. Qed.
Lemma grows_trans : forall m1 m2 m3 n1 n2, grows m1 m2 n1 -> grows m2 m3 n2 -> grows m1 m3 (n2 ++ n1).
Proof.
  intros m1 m2 m3 n1 n2 (S & P & F & U) (S' & P' & F' & U'). split; [now apply (same_elems_trans m1 m2 m3)|]. split; [|split].
  - now rewrite P', P, app_assoc.
  - rewrite map_app. intros ND a i s. apply nodup_app in ND. destruct ND as (N2 & N1 & D). rewrite in_app_iff. intros [I|I]; [now apply F'|].
    rewrite U'; [now apply F|]. intros J. apply (D _ J). now apply (in_map fst) in I.
  - intros a i. rewrite map_app, in_app_iff. intros N. rewrite U', U by tauto. reflexivity.
Qed.
Lemma shrinks_refl : forall m, shrinks m m [].
Proof. intros m. split; [apply same_elems_refl|]. split; [reflexivity|]. split; [intros a i []|reflexivity]. Qed.
Lemma shrinks_trans : forall m1 m2 m3 o1 o2, shrinks m1 m2 o1 -> shrinks m2 m3 o2 -> shrinks m1 m3 (o1 ++ o2).
Proof.
  intros m1 m2 m3 n1 n2 (S & P & F & U) (S' & P' & F' & U'). split; [now apply (same_elems_trans m1 m2 m3)|]. split; [|split].
  - rewrite P, P'. now rewrite app_assoc.
  - intros a i. rewrite map_app, in_app_iff. intros I. destruct (in_dec face_dec (a, i) (map fst n2)) as [J|J]; [now apply F'|]. rewrite U' by exact J. apply F. tauto.
  - intros a i. rewrite map_app, in_app_iff. intros N. rewrite U', U by tauto. reflexivity.
Qed.

(** ** what a container may hold *)
Lemma at_in : forall m d level sn a, at_ m d level sn = Some a -> In a (elements m).
Proof.
  intros m d level sn a. unfold at_. destruct (find _ _) as [e|] eqn:F; [|discriminate]. destruct (_ =? level); [|discriminate]. intros H. injection H as <-.
  apply find_some in F. destruct F as [I E]. apply Z.eqb_eq in E. unfold elements, addrs. apply in_or_app.
  destruct d; cbn in I; [right|left]; apply in_map_iff; exists e; subst; auto.
Qed.
Lemma type_ends_con : forall t c, Permutation (type_ends (with_cons (cons t ++ [c]) t)) (con_ends c ++ type_ends t).
Proof.
  intros t c. unfold type_ends. cbn [with_cons cons bounds refs]. rewrite flat_map_app. cbn [flat_map]. rewrite app_nil_r.
  rewrite app_assoc, (Permutation_app_comm (flat_map con_ends (cons t)) (con_ends c)). now rewrite <- !app_assoc.
Qed.
Lemma type_ends_bound : forall t c, Permutation (type_ends (with_bounds (bounds t ++ [c]) t)) (bound_ends c ++ type_ends t).
Proof.
  intros t c. unfold type_ends. cbn [with_bounds cons bounds refs]. rewrite flat_map_app. cbn [flat_map]. rewrite app_nil_r.
  rewrite (Permutation_app_comm (flat_map bound_ends (bounds t)) (bound_ends c)). rewrite <- app_assoc, !(app_assoc _ (bound_ends c)).
  rewrite (Permutation_app_comm (flat_map con_ends (cons t)) (bound_ends c)). now rewrite <- !app_assoc.
Qed.
Lemma flat_map_perm : forall A B (f : A -> list B) l l', Permutation l l' -> Permutation (flat_map f l) (flat_map f l').
Proof. intros A B f l l' P. induction P; cbn; auto; [now apply Permutation_app_head|rewrite !app_assoc; apply Permutation_app_tail, Permutation_app_comm|etransitivity; eassumption]. Qed.
Lemma type_ends_ref : forall t c rs, Permutation (concat rs) (c :: concat (refs t)) -> Permutation (type_ends (with_refs rs t)) (ref_ends c ++ type_ends t).
Proof.
  intros t c rs P. unfold type_ends. cbn [with_refs cons bounds refs]. rewrite (flat_map_perm _ _ ref_ends _ _ P). cbn [flat_map].
  set (a := flat_map con_ends (cons t)). set (b := flat_map bound_ends (bounds t)). rewrite (app_assoc a b), (app_assoc a b). apply Permutation_app_swap_app.
Qed.

Lemma ends_with_type : forall d t m, Permutation (ends (with_type d t m)) (type_ends t ++ type_ends (of_type (negb d) m)).
Proof. intros [|] t m; unfold ends; cbn; [apply Permutation_app_comm|reflexivity]. Qed.
Lemma ends_of : forall d m, Permutation (ends m) (type_ends (of_type d m) ++ type_ends (of_type (negb d) m)).
Proof. intros [|] m; unfold ends; cbn; [apply Permutation_app_comm|reflexivity]. Qed.
Lemma of_with : forall d t m, of_type d (with_type d t m) = t.
Proof. now intros [|] t m. Qed.
Lemma of_with_other : forall d t m, of_type (negb d) (with_type d t m) = of_type (negb d) m.
Proof. now intros [|] t m. Qed.

Lemma wf_of : forall m, wf m -> forall d, wf_type (n_dim m) d (of_type d m).
Proof. intros m W [|]; apply W. Qed.
(** replacing the connections of a container *)
Lemma wf_change : forall m m' d t, wf m -> n_dim m' = n_dim m -> of_type d m' = t -> of_type (negb d) m' = of_type (negb d) m ->
  elems t = elems (of_type d m) -> next_sn t = next_sn (of_type d m) -> wf_type (n_dim m) d t ->
  (forall f s, In (f, s) (type_ends t) -> In (fst f) (elements m)) -> wf m'.
Proof.
  intros m m' d t W N D O E S T I. pose proof (wf_of m W) as WT.
  assert (EL : elements m' = elements m).
  { unfold elements, addrs. destruct d; cbn in D, O, E; rewrite D, O, E; reflexivity. }
  assert (WT' : forall d', wf_type (n_dim m') d' (of_type d' m')).
  { intros d'. rewrite N. destruct (bool_dec d' d) as [->|X]; [now rewrite D|]. replace d' with (negb d) by (destruct d, d'; cbn; congruence || reflexivity). rewrite O. apply WT. }
  split.
  - rewrite N. apply W.
  - apply (WT' false).
  - apply (WT' true).
  - intros f s F. rewrite EL. apply (Permutation_in _ (ends_of d m')) in F. rewrite D, O in F. apply in_app_or in F. destruct F as [F|F]; [now apply (I f s)|].
    apply (wf_in _ W f s). apply (Permutation_in _ (Permutation_sym (ends_of d m))). apply in_or_app. now right.
Qed.
