(** The old elements stay what they are during an update; the deletion of extruded elements; the whole update. *)
From Coq Require Import ZArith QArith List Bool Arith Lia Permutation.
From Verif Require Import Outcome Loop Tree_Model Tree_Spec Tree_Proofs Tree_Neighbors Tree_Flood Update_Model Update_Spec Update_Proofs1 Update_Proofs4 Update_Proofs8 Update_Proofs9
  Update_Proofs11 Trim_Model Trim_Spec Trim_Proofs4 Trim_Proofs7 Trim_Thm Join_Model Join_Spec Join_Proofs1 Join_Proofs2 Join_Proofs3.
Import ListNotations.
Local Open Scope nat_scope.

Lemma Keeps_set a i r : Keeps a (set_record i r a).
Proof.
  apply Keeps_one; [apply length_set|]. intros j e H. rewrite nth_set, H. destruct (i =? j); cbn; [|eauto]. exists (put_record r e). split; [reflexivity|split; reflexivity].
Qed.
Lemma Keeps_elems a b : s_elems b = s_elems a -> Keeps a b. Proof. intros E. apply Keeps_one; [now rewrite E|]. intros i e H. rewrite E. eauto. Qed.
Lemma Keeps_on_tree n op a b : on_tree n op a = Ok b -> Keeps a b.
Proof. unfold on_tree. intros H. apply bind_ok in H as (t & _ & H). injection H as <-. now apply Keeps_elems. Qed.
Lemma Keeps_add n d p a b : add_elem n d p a = Ok b -> Keeps a b.
Proof.
  unfold add_elem. intros H. apply bind_ok in H as (s & H1 & H). injection H as <-. eapply Keeps_trans; [eapply Keeps_on_tree; eauto|]. split; cbn [s_elems].
  - intros i e E. exists e. split; [rewrite nth_error_app1; [exact E|apply nth_error_Some; congruence]|auto].
  - intros i e' E L. rewrite nth_error_app2 in E by exact L. destruct (i - length (s_elems s)) as [|k]; cbn in E; [injection E as <-; discriminate|now destruct k].
Qed.
Lemma Keeps_ofold {X} (f : X -> state -> outcome state) l : (forall x s s', f x s = Ok s' -> Keeps s s') -> forall s s', ofold f l s = Ok s' -> Keeps s s'.
Proof.
  intros H. induction l as [|x l IH]; cbn [ofold]; intros s s' E; [injection E as <-; apply Keeps_refl|]. apply bind_ok in E as (s1 & E1 & E2).
  eapply Keeps_trans; [eapply H; eauto|eauto].
Qed.
Lemma Keeps_ofold2 {X} (f : X -> state * bool -> outcome (state * bool)) l : (forall x s s', f x s = Ok s' -> Keeps (fst s) (fst s')) ->
  forall s s', ofold f l s = Ok s' -> Keeps (fst s) (fst s').
Proof.
  intros H. induction l as [|x l IH]; cbn [ofold]; intros s s' E; [injection E as <-; apply Keeps_refl|]. apply bind_ok in E as (s1 & E1 & E2).
  eapply Keeps_trans; [eapply H; eauto|eauto].
Qed.
Lemma Keeps_fold {X} (f : state -> X -> state) l : (forall x s, Keeps s (f s x)) -> forall s, Keeps s (fold_left f l s).
Proof. intros H. induction l as [|x l IH]; cbn [fold_left]; intros s; [apply Keeps_refl|]. eapply Keeps_trans; [apply H|apply IH]. Qed.

Lemma Keeps_refine_set n surf p a b : refine_set_status n surf p a = Ok b -> Keeps a b.
Proof.
  unfold refine_set_status. intros H. apply bind_ok in H as (s & H1 & H2). eapply Keeps_trans; [eapply Keeps_on_tree; eauto|].
  revert H2. apply Keeps_ofold. intros; eapply Keeps_on_tree; eauto.
Qed.
Lemma Keeps_refine_one n surf d i a b : refine_one n surf d i a = Ok b -> Keeps a b.
Proof.
  unfold refine_one. destruct (tree_of a i) as [p|]; [|intros E; injection E as <-; apply Keeps_refl]. destruct (record_of a i =? 1)%Z; [|intros E; injection E as <-; apply Keeps_refl].
  intros H. apply bind_ok in H as (s & H1 & H2). eapply Keeps_trans; [apply (Keeps_set a i 2)|]. eapply Keeps_trans; [eapply Keeps_refine_set; eauto|].
  revert H2. apply Keeps_ofold. intros; eapply Keeps_add; eauto.
Qed.
Lemma Keeps_refine n surf d a b : refine_by_record n surf d a = Ok b -> Keeps a b.
Proof. apply Keeps_ofold. intros; eapply Keeps_refine_one; eauto. Qed.
Lemma Keeps_delete_children qs a : Keeps a (delete_children qs a).
Proof. unfold delete_children. apply Keeps_fold. intros q s. destruct (elem_at s q); [apply Keeps_set|apply Keeps_refl]. Qed.
Ltac done_ok := intros E; injection E as <-; apply Keeps_refl.
Lemma Keeps_unrefine_one n i a b : unrefine_one n i a = Ok b -> Keeps (fst a) (fst b).
Proof.
  destruct a as [st ch]. unfold unrefine_one. cbn [fst]. destruct (tree_of st i) as [p|]; [|done_ok]. destruct (record_of st i =? -1)%Z; [|done_ok]. destruct p as [|k p]; [done_ok|]. cbv zeta.
  destruct (negb _ && _).
  - intros H. apply bind_ok in H as (bad & _ & H). destruct bad; [injection H as <-; apply Keeps_refl|]. apply bind_ok in H as (s1 & H1 & H). apply bind_ok in H as (s2 & H2 & H). injection H as <-. cbn [fst].
    eapply Keeps_trans; [apply Keeps_delete_children|]. eapply Keeps_trans; [eapply Keeps_on_tree; eauto|eapply Keeps_add; eauto].
  - intros E. injection E as <-. apply Keeps_set.
Qed.
Lemma Keeps_unrefine n orig : forall fuel a b, unrefine_loop fuel n orig a = Ok b -> Keeps a b.
Proof.
  induction fuel as [|fuel IH]; intros a b H; [discriminate|]. cbn [unrefine_loop] in H. apply bind_ok in H as ([s ch] & H1 & H2).
  apply (Keeps_ofold2 (unrefine_one n)) in H1; [|intros; eapply Keeps_unrefine_one; eauto]. cbn [fst] in H1. destruct ch; [eapply Keeps_trans; [exact H1|eauto]|]. injection H2 as <-. exact H1.
Qed.
Lemma Keeps_reset a : Keeps a (reset_denied a).
Proof.
  apply Keeps_one; [unfold reset_denied; cbn; now rewrite map_length|]. intros i e H. unfold reset_denied. cbn [s_elems]. rewrite nth_error_map, H. cbn. eexists. split; [reflexivity|]. destruct (e_record e =? -1)%Z; split; reflexivity.
Qed.
Lemma Keeps_unfill n0 a : Keeps a (unfill n0 a).
Proof. unfold unfill. apply Keeps_fold. intros i s. destruct (tree_of s i); [|apply Keeps_refl]. destruct (negb _ && _); [apply Keeps_set|apply Keeps_refl]. Qed.
Lemma Keeps_sync n surf p dir a b : sync_one n surf p dir a = Ok b -> Keeps (fst a) (fst b).
Proof.
  destruct a as [st ch]. unfold sync_one. cbn [fst]. intros H. apply bind_ok in H as (nb & _ & H). destruct nb as [q|]; [|revert H; done_ok]. revert H.
  destruct (exists_at st q); [done_ok|]. destruct (level_at st p <? level_at st q).
  { destruct q as [|k q]; [discriminate|]. cbv zeta. destruct (forallb _ _); [|done_ok]. intros H. apply bind_ok in H as (bad & _ & H). destruct bad; [injection H as <-; apply Keeps_refl|].
    apply bind_ok in H as (s & H1 & H). injection H as <-. eapply Keeps_trans; [apply Keeps_delete_children|eapply Keeps_on_tree; eauto]. }
  destruct (level_at st q + 1 <? level_at st p).
  { intros H. apply bind_ok in H as (s & H1 & H). injection H as <-. eapply Keeps_refine_set; eauto. }
  destruct (level_at st q <? level_at st p); [|done_ok]. intros H. apply bind_ok in H as (m & _ & H). revert H. destruct (match m with Some k => _ | None => _ end); [|done_ok].
  intros H. apply bind_ok in H as (s & H1 & H). injection H as <-. eapply Keeps_refine_set; eauto.
Qed.
Lemma Keeps_flood_iter n surf a b : flood_iter n surf a = Ok b -> Keeps a (fst b).
Proof.
  unfold flood_iter. intros H. apply bind_ok in H as (s1 & H1 & H). apply bind_ok in H as (s2 & H2 & H3).
  apply (Keeps_ofold2 (sync_elem n surf)) in H1.
  2:{ intros i s s'. unfold sync_elem. destruct (tree_of (fst s) i); [|done_ok]. destruct (exists_at _ _); [|done_ok]. apply Keeps_ofold2. intros x u u'.
      destruct (tree_of (fst u) i); [apply Keeps_sync|discriminate]. }
  assert (G : forall d i s s', fill_elem n d i s = Ok s' -> Keeps (fst s) (fst s')).
  { intros d i s s'. unfold fill_elem. destruct (tree_of (fst s) i); [|done_ok]. destruct (exists_at _ _); [|done_ok]. apply Keeps_ofold2. intros x u u' E. apply bind_ok in E as (nb & _ & E).
    revert E. apply Keeps_ofold2. intros q [v c] v'. unfold fill_one. destruct (negb _ && _); [|done_ok]. intros E. apply bind_ok in E as (v1 & E1 & E). apply bind_ok in E as (v2 & E2 & E).
    injection E as <-. cbn [fst]. eapply Keeps_trans; [eapply Keeps_add; eauto|eapply Keeps_on_tree; eauto]. }
  apply (Keeps_ofold2 (fill_elem n false)) in H2; [|intros; eapply G; eauto]. apply (Keeps_ofold2 (fill_elem n true)) in H3; [|intros; eapply G; eauto].
  eapply Keeps_trans; [exact H1|]. eapply Keeps_trans; [exact H2|exact H3].
Qed.
Lemma Keeps_flood n surf : forall fuel a b, flood_loop' fuel n surf a = Ok b -> Keeps a b.
Proof.
  induction fuel as [|fuel IH]; intros a b H; [discriminate|]. cbn [flood_loop'] in H. apply bind_ok in H as ([s ch] & H1 & H2). apply Keeps_flood_iter in H1. cbn [fst] in H1.
  destruct ch; [eapply Keeps_trans; [exact H1|eauto]|]. injection H2 as <-. exact H1.
Qed.
Lemma Keeps_smooth n surf : forall fuel a b, smooth_loop fuel n surf a = Ok b -> Keeps a b.
Proof.
  induction fuel as [|fuel IH]; intros a b H; [discriminate|]. cbn [smooth_loop] in H. apply bind_ok in H as ([s ch] & H1 & H2).
  apply (Keeps_ofold2 (mark_one n)) in H1.
  2:{ intros i [u c] u'. unfold mark_one. cbn [fst]. destruct (tree_of u i); [|done_ok]. destruct (record_of u i =? 2)%Z; [done_ok|]. intros E. apply bind_ok in E as (bad & _ & E). revert E.
      destruct bad; [intros E; injection E as <-; apply Keeps_set|done_ok]. }
  cbn [fst] in H1. apply bind_ok in H2 as (s1 & E1 & H2). apply bind_ok in H2 as (s2 & E2 & H2). apply Keeps_refine in E1. apply Keeps_refine in E2.
  assert (K : Keeps a s2) by (eapply Keeps_trans; [exact H1|]; eapply Keeps_trans; eauto). destruct ch; [eapply Keeps_trans; [exact K|eauto]|]. injection H2 as <-. exact K.
Qed.
Lemma Keeps_asked ref unref cons a : Keeps a (pass_requests cons (decide ref unref a)).
Proof.
  eapply Keeps_trans; [|unfold pass_requests; apply Keeps_fold].
  - apply Keeps_one; [unfold decide; cbn [s_elems]; rewrite map_length, combine_length, seq_length; lia|]. intros i e H. unfold decide. cbn [s_elems]. rewrite nth_error_map. assert (E : nth_error (combine (seq 0 (length (s_elems a))) (s_elems a)) i = Some (i, e)).
    { assert (L : i < length (s_elems a)) by (apply nth_error_Some; congruence). rewrite (nth_error_nth' _ (0, e)) by (rewrite combine_length, seq_length; lia).
      rewrite combine_nth by (now rewrite seq_length). rewrite seq_nth by exact L. now rewrite (nth_error_nth _ _ e H). }
    rewrite E. cbn. eexists. split; [reflexivity|split; reflexivity].
  - intros c s. unfold pass_one. destruct (nth_error (s_elems s) (fst c)) as [o|]; [|apply Keeps_refl]. apply Keeps_one; [cbn [s_elems]; apply update_nth_length|]. intros i e H. cbn [s_elems]. rewrite nth_error_update_nth, H. destruct (snd c =? i); cbn; [|eauto].
    eexists. split; [reflexivity|split; reflexivity].
Qed.
Lemma Keeps_update fuel n surf ref unref cons a b : update_mesh fuel n surf ref unref cons a = Ok b -> Keeps a b.
Proof.
  unfold update_mesh. cbv zeta. intros H. apply bind_ok in H as (s1 & H1 & H). apply bind_ok in H as (s2 & H2 & H). apply bind_ok in H as (s3 & H3 & H). apply bind_ok in H as (s4 & H4 & H).
  eapply Keeps_trans; [apply Keeps_asked|]. eapply Keeps_trans; [eapply Keeps_refine, H1|]. eapply Keeps_trans; [eapply Keeps_refine, H2|]. eapply Keeps_trans; [eapply Keeps_unrefine, H3|].
  eapply Keeps_trans; [apply Keeps_reset|]. eapply Keeps_trans; [apply Keeps_unfill|]. eapply Keeps_trans; [eapply Keeps_flood, H4|eapply Keeps_smooth, H].
Qed.

Lemma only_marks_Keeps a b : only_marks a b -> Keeps a b.
Proof. intros (_ & L & H). apply Keeps_one; [exact L|]. intros i e E. destruct (H i e E) as (e' & E' & P & D & _). eauto. Qed.
Lemma Keeps_make_def i a : Keeps a (make_def i a). Proof. apply Keeps_set. Qed.
Lemma Keeps_deform fuel n ord1 ord2 order a b : deform fuel n ord1 ord2 order a = Ok b -> Keeps a b.
Proof.
  unfold deform. cbv zeta. intros H. apply bind_ok in H as (s1 & H1 & H). apply bind_ok in H as (s2 & H2 & H). eapply Keeps_trans; [apply (Keeps_fold (fun st i => undeform_one i st) ord1)|].
  { intros i s. unfold undeform_one. destruct (tree_of s i); [|apply Keeps_refl]. destruct (negb _ && _); [apply Keeps_set|apply Keeps_refl]. }
  apply (Keeps_trans _ s1); [|apply (Keeps_trans _ s2)].
  - revert H1. apply Keeps_ofold. intros i s s'. unfold deform_one. destruct (tree_of s i); [|done_ok]. destruct (record_of s i =? 2)%Z; [done_ok|]. intros E. apply bind_ok in E as (nbs & _ & E). revert E.
    cbv zeta. destruct (existsb _ _); [|done_ok]. intros E. injection E as <-. eapply Keeps_trans; [apply Keeps_make_def|]. apply Keeps_fold. intros f u. destruct (def_face _ _ _); [|apply Keeps_refl].
    apply Keeps_fold. intros q v. unfold def_neighbor. destruct (elem_at v q); [|apply Keeps_refl]. destruct (record_of _ _ =? 2)%Z; [apply Keeps_refl|apply Keeps_make_def].
  - clear H H1. revert s1 H2. induction fuel as [|fuel IH]; intros s1 H2; [discriminate|]. cbn [spread_loop] in H2. apply bind_ok in H2 as ([s ch] & E1 & E2).
    apply (Keeps_ofold2 (spread_one n)) in E1.
    2:{ intros i u u'. unfold spread_one. destruct (tree_of (fst u) i); [|done_ok]. destruct (is_def _ _); [|done_ok]. apply Keeps_ofold2. intros f [v c] v'. unfold spread_face. intros E.
        apply bind_ok in E as (nb & _ & E). revert E. cbv zeta. destruct (_ && _); [|done_ok]. intros E. injection E as <-. cbn [fst]. apply Keeps_fold. intros j w. apply Keeps_make_def. }
    cbn [fst] in E1. destruct ch; [eapply Keeps_trans; [exact E1|eauto]|]. injection E2 as <-. exact E1.
  - unfold toggle in H. apply bind_ok in H as (s3 & E1 & E2).
    assert (G : forall d i s s', toggle_one n d i s = Ok s' -> Keeps s s').
    { intros d i s s'. unfold toggle_one. destruct (record_of s i =? 3)%Z; [|done_ok]. intros E. apply bind_ok in E as (p & _ & E). apply bind_ok in E as (u & E3 & E). injection E as <-.
      eapply Keeps_trans; [eapply Keeps_add; eauto|apply Keeps_set]. }
    apply (Keeps_trans _ s3); [revert E1|revert E2]; apply Keeps_ofold; intros; eapply G; eauto.
Qed.
Lemma Keeps_set_surface fuel n surf start a b : set_surface fuel n surf start a = Ok b -> Keeps a b.
Proof.
  unfold set_surface. intros H. apply bind_ok in H as (s1 & H1 & H). apply bind_ok in H as (s2 & H2 & H). injection H as <-. apply (Keeps_trans _ s1); [|eapply Keeps_trans; [eapply Keeps_on_tree; eauto|]].
  - revert H1. apply Keeps_ofold. intros i s s'. unfold mark_surface. destruct (tree_of s i); [|done_ok]. destruct (surf _); [apply Keeps_on_tree|done_ok].
  - unfold drop_unreached. apply Keeps_fold. intros i s. destruct (tree_of s i) as [p|]; [|apply Keeps_set]. destruct (subtree _ p); [|apply Keeps_refl]. destruct (_ =? _)%Z; apply Keeps_set.
Qed.
