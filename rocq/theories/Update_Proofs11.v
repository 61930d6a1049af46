(** [set_surface] leaves a mesh that can be updated. *)
From Coq Require Import ZArith List Bool Arith Lia.
From Verif Require Import Outcome Loop Tree_Model Tree_Spec Tree_Proofs Tree_Neighbors Tree_Flood Update_Model Update_Spec
  Update_Proofs1 Update_Proofs2 Update_Proofs9.
Import ListNotations.
Local Open Scope nat_scope.

Lemma flood_loop_forget n s : forall fuel t q t', flood_loop fuel n s t q = Ok t' -> forget_status t' = forget_status t.
Proof.
  induction fuel as [|fuel IH]; intros t q t' H; destruct q as [|p q]; cbn [flood_loop] in H; try discriminate; try (injection H as <-; reflexivity).
  destruct (subtree t p) as [x|]; cbn [of_option_ub bind] in H; [|discriminate]. destruct (t_status x =? unprocessed)%Z.
  - destruct (push_neighbors n (update p (set_status_node s) t) p (face_directions n) q) as [qq| | |]; cbn [bind] in H; try discriminate.
    rewrite (IH _ _ _ H). apply forget_update.
  - apply (IH _ _ _ H).
Qed.
Lemma flood_fill_forget n s : forall fuel t p t', flood_fill fuel n t p s = Ok t' -> forget_status t' = forget_status t.
Proof.
  induction fuel as [|fuel IH]; intros t p t' H; [discriminate|]. cbn [flood_fill] in H. destruct (s =? unprocessed)%Z; [discriminate|].
  destruct (subtree t p) as [x|]; cbn [of_option_ub bind] in H; [|discriminate]. destruct (negb (is_leaf x)).
  - destruct (flood_fill fuel n t (p ++ [0]) s) as [t1| | |] eqn:E; cbn [bind] in H; try discriminate.
    rewrite (flood_loop_forget n s _ _ _ _ H). apply (IH _ _ _ E).
  - cbn [bind] in H. apply (flood_loop_forget n s _ _ _ _ H).
Qed.

(** changes of status and of records *)
Definition same_mesh (st st' : state) : Prop :=
  forget_status (s_tree st') = forget_status (s_tree st) /\ map e_path (s_elems st') = map e_path (s_elems st).
Lemma same_mesh_refl st : same_mesh st st. Proof. split; reflexivity. Qed.
Lemma same_mesh_trans a b c : same_mesh a b -> same_mesh b c -> same_mesh a c.
Proof. intros [H1 H2] [H3 H4]. split; congruence. Qed.

Lemma settled_same n st st' : same_mesh st st' -> reachable n (s_tree st') -> settled n st -> settled n st'.
Proof.
  intros [F P] R [_ H]. split; [exact R|]. intros p x z Hx Hz. destruct (subtree_same _ (s_tree st) p x F Hx) as (x0 & Hx0 & E).
  destruct x as [l c s e cs], x0 as [l0 c0 s0 e0 cs0]. cbn in Hz, E. subst e. injection E as -> -> Ez Ec.
  destruct (H p _ z Hx0) as (K1 & i & e & -> & K2 & K3); [cbn; congruence|]. cbn in K1 |- *. subst cs0.
  split; [now destruct cs|]. pose proof (nth_error_map e_path i (s_elems st)) as A. pose proof (nth_error_map e_path i (s_elems st')) as B.
  rewrite P, A, K2 in B. cbn in B. destruct (nth_error (s_elems st') i) as [e'|] eqn:E'; [|discriminate]. cbn in B. injection B as B.
  exists i, e'. split; [reflexivity|]. split; [exact E'|congruence].
Qed.

Lemma map_path_set st i r : map e_path (s_elems (set_record i r st)) = map e_path (s_elems st).
Proof.
  cbn [set_record s_elems]. generalize (s_elems st). intros l. revert i. induction l as [|e l IH]; intros [|i]; cbn; try reflexivity. f_equal. apply IH.
Qed.

Lemma set_surface_same n surf start fuel st st' : set_surface fuel n surf start st = Ok st' -> reachable n (s_tree st) ->
  same_mesh st st' /\ reachable n (s_tree st').
Proof.
  unfold set_surface. generalize (container st false ++ container st true). intros l H R.
  assert (M : forall l st s1, ofold (mark_surface n surf) l st = Ok s1 -> reachable n (s_tree st) -> same_mesh st s1 /\ reachable n (s_tree s1)).
  { clear. induction l as [|i l IH]; intros st s1 H R; cbn [ofold] in H; [injection H as <-; split; [apply same_mesh_refl|exact R]|].
    destruct (mark_surface n surf i st) as [s0| | |] eqn:E; cbn [bind] in H; try discriminate.
    assert (K : same_mesh st s0 /\ reachable n (s_tree s0)).
    { unfold mark_surface in E. destruct (tree_of st i) as [p|]; [|injection E as <-; split; [apply same_mesh_refl|exact R]].
      destruct (surf p); [|injection E as <-; split; [apply same_mesh_refl|exact R]].
      destruct (on_tree_elems _ _ _ _ E) as [E1 E2]. split; [|apply (reachable_step n _ _ _ R E2)].
      split; [|now rewrite E1]. cbn in E2. destruct (subtree (s_tree st) p); [|discriminate]. cbn in E2. injection E2 as <-. apply forget_update. }
    destruct K as [K1 K2]. destruct (IH s0 s1 H K2) as [K3 K4]. split; [eapply same_mesh_trans; eauto|exact K4]. }
  destruct (ofold (mark_surface n surf) l st) as [s1| | |] eqn:E1; cbn [bind] in H; try discriminate.
  destruct (on_tree n (Flood_fill fuel start 1%Z) s1) as [s2| | |] eqn:E2; cbn [bind] in H; try discriminate. injection H as <-.
  destruct (M l st s1 E1 R) as [K1 R1]. destruct (on_tree_elems _ _ _ _ E2) as [P2 T2]. pose proof (reachable_step n _ _ _ R1 T2) as R2.
  assert (K2 : same_mesh s1 s2) by (split; [apply (flood_fill_forget n 1%Z fuel _ start _ T2)|now rewrite P2]).
  assert (K3 : same_mesh s2 (drop_unreached s2) /\ s_tree (drop_unreached s2) = s_tree s2).
  { unfold drop_unreached. generalize (seq 0 (length (s_elems s2))). intros l'. clear. revert s2.
    induction l' as [|i l' IH]; intros s2; cbn [fold_left]; [split; [apply same_mesh_refl|reflexivity]|].
    match goal with |- context [fold_left _ l' ?s] => set (s' := s) end.
    assert (X : s_tree s' = s_tree s2 /\ map e_path (s_elems s') = map e_path (s_elems s2)).
    { unfold s'. destruct (tree_of s2 i) as [p|]; [|split; [reflexivity|apply map_path_set]].
      destruct (subtree (s_tree s2) p) as [x|]; [|split; reflexivity]. destruct (t_status x =? 1)%Z; (split; [reflexivity|apply map_path_set]). }
    destruct X as [X1 X2]. destruct (IH s') as [Y1 Y2]. split; [|congruence].
    eapply same_mesh_trans; [|exact Y1]. split; [now rewrite X1|exact X2]. }
  destruct K3 as [K3 T3]. split; [eapply same_mesh_trans; [exact K1|eapply same_mesh_trans; eauto]|]. rewrite T3. exact R2.
Qed.

Lemma settled_consistent n st : settled n st -> consistent n st.
Proof.
  intros [R H]. split; [exact R|]. intros p x z Hx Hz. destruct (H p x z Hx Hz) as (L & i & e & -> & K1 & K2). exists i, e. auto.
Qed.

Lemma set_surface_settled n surf start fuel st st' : settled n st -> set_surface fuel n surf start st = Ok st' -> settled n (purge st').
Proof.
  intros S0 H. destruct (set_surface_same n surf start fuel st st' H (proj1 S0)) as [K R].
  apply purge_settled, settled_consistent. apply (settled_same n st st' K R S0).
Qed.
