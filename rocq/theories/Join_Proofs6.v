(** Records of extruded elements, and what an update keeps. *)
From Coq Require Import ZArith QArith List Bool Arith Lia Permutation.
From Verif Require Import Outcome Loop ListUtil Tree_Model Tree_Spec Tree_Proofs Tree_Neighbors Tree_Flood Update_Model Update_Spec Update_Proofs1 Update_Proofs2 Update_Proofs3 Update_Proofs4
  Update_Proofs8 Update_Proofs9 Update_Proofs11 Trim_Model Trim_Spec Trim_Proofs3 Trim_Proofs4 Trim_Proofs6 Trim_Proofs7 Trim_Thm Join_Model Join_Spec Join_Proofs1 Join_Proofs2 Join_Proofs3
  Join_Proofs4 Join_Proofs5.
Import ListNotations.
Local Open Scope nat_scope.

(** Records that are 2 stay so; those of extruded elements change to 2 only, or from -1 to 0. *)
Definition Stays (a b : state) : Prop := forall i e, nth_error (s_elems a) i = Some e -> exists e', nth_error (s_elems b) i = Some e' /\ e_path e' = e_path e /\
  (e_record e = 2%Z -> e_record e' = 2%Z) /\ (e_path e = None -> e_record e' = e_record e \/ e_record e' = 2%Z \/ e_record e = (-1)%Z /\ e_record e' = 0%Z).
Lemma Stays_refl a : Stays a a. Proof. intros i e H. exists e. auto. Qed.
Lemma Stays_trans a b c : Stays a b -> Stays b c -> Stays a c.
Proof.
  intros H K i e E. destruct (H i e E) as (e1 & E1 & P1 & T1 & R1). destruct (K i e1 E1) as (e2 & E2 & P2 & T2 & R2). exists e2. split; [exact E2|]. split; [congruence|]. split; [auto|].
  intros N. specialize (R1 N). rewrite <- P1 in N. specialize (R2 N). destruct R1 as [R1|[R1|[R1 R1']]]; [rewrite <- R1; exact R2|right; left; auto|].
  destruct R2 as [R2|[R2|[R2 R2']]]; [right; right; split; congruence|auto|congruence].
Qed.
Lemma Stays_set a i r : r = 2%Z \/ record_of a i <> 2%Z /\ tree_of a i <> None -> Stays a (set_record i r a).
Proof.
  intros H j e E. rewrite nth_set, E. destruct (Nat.eqb_spec i j) as [->|]; cbn [option_map]; [|exists e; auto]. exists (put_record r e). split; [reflexivity|]. split; [reflexivity|]. cbn [put_record e_record].
  destruct H as [->|[H1 H2]]; [auto|]. rewrite (record_of_nth _ _ _ E) in H1. split; [contradiction|]. intros N. exfalso. apply H2. unfold tree_of. now rewrite E, N.
Qed.
Lemma Stays_elems a b : s_elems b = s_elems a -> Stays a b. Proof. intros E i e H. rewrite E. exists e. auto. Qed.
Lemma Stays_on_tree n op a b : on_tree n op a = Ok b -> Stays a b.
Proof. unfold on_tree. intros H. apply bind_ok in H as (t & _ & H). injection H as <-. now apply Stays_elems. Qed.
Lemma Stays_add n d p a b : add_elem n d p a = Ok b -> Stays a b.
Proof.
  unfold add_elem. intros H. apply bind_ok in H as (s & H1 & H). injection H as <-. eapply Stays_trans; [eapply Stays_on_tree; eauto|].
  intros i e E. exists e. cbn [s_elems]. split; [rewrite nth_error_app1; [exact E|apply nth_error_Some; congruence]|auto].
Qed.
Lemma Stays_ofold {X} (f : X -> state -> outcome state) l : (forall x s s', f x s = Ok s' -> Stays s s') -> forall s s', ofold f l s = Ok s' -> Stays s s'.
Proof.
  intros H. induction l as [|x l IH]; cbn [ofold]; intros s s' E; [injection E as <-; apply Stays_refl|]. apply bind_ok in E as (s1 & E1 & E2).
  eapply Stays_trans; [eapply H; eauto|eauto].
Qed.
Lemma Stays_ofold2 {X} (f : X -> state * bool -> outcome (state * bool)) l : (forall x s s', f x s = Ok s' -> Stays (fst s) (fst s')) ->
  forall s s', ofold f l s = Ok s' -> Stays (fst s) (fst s').
Proof.
  intros H. induction l as [|x l IH]; cbn [ofold]; intros s s' E; [injection E as <-; apply Stays_refl|]. apply bind_ok in E as (s1 & E1 & E2).
  eapply Stays_trans; [eapply H; eauto|eauto].
Qed.
Lemma Stays_fold {X} (f : state -> X -> state) l : (forall x s, Stays s (f s x)) -> forall s, Stays s (fold_left f l s).
Proof. intros H. induction l as [|x l IH]; cbn [fold_left]; intros s; [apply Stays_refl|]. eapply Stays_trans; [apply H|apply IH]. Qed.
Ltac same_ok := intros E; injection E as <-; apply Stays_refl.
Lemma Stays_refine_set n surf p a b : refine_set_status n surf p a = Ok b -> Stays a b.
Proof.
  unfold refine_set_status. intros H. apply bind_ok in H as (s & H1 & H2). eapply Stays_trans; [eapply Stays_on_tree; eauto|].
  revert H2. apply Stays_ofold. intros; eapply Stays_on_tree; eauto.
Qed.
Lemma Stays_refine n surf d a b : refine_by_record n surf d a = Ok b -> Stays a b.
Proof.
  apply Stays_ofold. intros i s s'. unfold refine_one. destruct (tree_of s i) as [p|]; [|same_ok]. destruct (record_of s i =? 1)%Z; [|same_ok].
  intros H. apply bind_ok in H as (u & H1 & H2). eapply Stays_trans; [apply (Stays_set s i 2); now left|]. eapply Stays_trans; [eapply Stays_refine_set; eauto|].
  revert H2. apply Stays_ofold. intros; eapply Stays_add; eauto.
Qed.
Lemma Stays_delete_children qs a : Stays a (delete_children qs a).
Proof. unfold delete_children. apply Stays_fold. intros q s. destruct (elem_at s q); [apply Stays_set; now left|apply Stays_refl]. Qed.
Lemma Stays_unrefine n orig : forall fuel a b, unrefine_loop fuel n orig a = Ok b -> Stays a b.
Proof.
  induction fuel as [|fuel IH]; intros a b H; [discriminate|]. cbn [unrefine_loop] in H. apply bind_ok in H as ([s ch] & H1 & H2).
  apply (Stays_ofold2 (unrefine_one n)) in H1.
  2:{ clear. intros i [st ch] b. unfold unrefine_one. cbn [fst]. destruct (tree_of st i) as [p|] eqn:Et; [|same_ok]. destruct (Z.eqb_spec (record_of st i) (-1)) as [R|]; [|same_ok].
      destruct p as [|k p]; [same_ok|]. cbv zeta. destruct (negb _ && _).
      - intros H. apply bind_ok in H as (bad & _ & H). revert H. destruct bad; [same_ok|]. intros H. apply bind_ok in H as (s1 & H1 & H). apply bind_ok in H as (s2 & H2 & H). injection H as <-. cbn [fst].
        eapply Stays_trans; [apply Stays_delete_children|]. eapply Stays_trans; [eapply Stays_on_tree; eauto|eapply Stays_add; eauto].
      - intros H. injection H as <-. cbn [fst]. apply Stays_set. right. split; [rewrite R|rewrite Et]; discriminate. }
  cbn [fst] in H1. destruct ch; [eapply Stays_trans; [exact H1|eauto]|]. injection H2 as <-. exact H1.
Qed.
Lemma Stays_reset a : Stays a (reset_denied a).
Proof.
  intros i e H. unfold reset_denied. cbn [s_elems]. rewrite nth_error_map, H. cbn [option_map]. eexists. split; [reflexivity|]. destruct (Z.eqb_spec (e_record e) (-1)) as [R|R]; cbn [put_record e_path e_record].
  - split; [reflexivity|]. split; [congruence|]. auto.
  - auto.
Qed.
Lemma Stays_unfill n0 a : Stays a (unfill n0 a).
Proof. unfold unfill. apply Stays_fold. intros i s. destruct (tree_of s i); [|apply Stays_refl]. destruct (negb _ && _); [apply Stays_set; now left|apply Stays_refl]. Qed.
Lemma Stays_sync n surf p dir a b : sync_one n surf p dir a = Ok b -> Stays (fst a) (fst b).
Proof.
  destruct a as [st ch]. unfold sync_one. cbn [fst]. intros H. apply bind_ok in H as (nb & _ & H). destruct nb as [q|]; [|revert H; same_ok]. revert H.
  destruct (exists_at st q); [same_ok|]. destruct (level_at st p <? level_at st q).
  { destruct q as [|k q]; [discriminate|]. cbv zeta. destruct (forallb _ _); [|same_ok]. intros H. apply bind_ok in H as (bad & _ & H). destruct bad; [injection H as <-; apply Stays_refl|].
    apply bind_ok in H as (s & H1 & H). injection H as <-. eapply Stays_trans; [apply Stays_delete_children|eapply Stays_on_tree; eauto]. }
  destruct (level_at st q + 1 <? level_at st p).
  { intros H. apply bind_ok in H as (s & H1 & H). injection H as <-. eapply Stays_refine_set; eauto. }
  destruct (level_at st q <? level_at st p); [|same_ok]. intros H. apply bind_ok in H as (m & _ & H). revert H. destruct (match m with Some k => _ | None => _ end); [|same_ok].
  intros H. apply bind_ok in H as (s & H1 & H). injection H as <-. eapply Stays_refine_set; eauto.
Qed.
Lemma Stays_flood_iter n surf a b : flood_iter n surf a = Ok b -> Stays a (fst b).
Proof.
  unfold flood_iter. intros H. apply bind_ok in H as (s1 & H1 & H). apply bind_ok in H as (s2 & H2 & H3).
  apply (Stays_ofold2 (sync_elem n surf)) in H1.
  2:{ intros i s s'. unfold sync_elem. destruct (tree_of (fst s) i); [|same_ok]. destruct (exists_at _ _); [|same_ok]. apply Stays_ofold2. intros x u u'.
      destruct (tree_of (fst u) i); [apply Stays_sync|discriminate]. }
  assert (G : forall d i s s', fill_elem n d i s = Ok s' -> Stays (fst s) (fst s')).
  { intros d i s s'. unfold fill_elem. destruct (tree_of (fst s) i); [|same_ok]. destruct (exists_at _ _); [|same_ok]. apply Stays_ofold2. intros x u u' E. apply bind_ok in E as (nb & _ & E).
    revert E. apply Stays_ofold2. intros q [v c] v'. unfold fill_one. destruct (negb _ && _); [|same_ok]. intros E. apply bind_ok in E as (v1 & E1 & E). apply bind_ok in E as (v2 & E2 & E).
    injection E as <-. cbn [fst]. eapply Stays_trans; [eapply Stays_add; eauto|eapply Stays_on_tree; eauto]. }
  apply (Stays_ofold2 (fill_elem n false)) in H2; [|intros; eapply G; eauto]. apply (Stays_ofold2 (fill_elem n true)) in H3; [|intros; eapply G; eauto].
  eapply Stays_trans; [exact H1|]. eapply Stays_trans; [exact H2|exact H3].
Qed.
Lemma Stays_flood n surf : forall fuel a b, flood_loop' fuel n surf a = Ok b -> Stays a b.
Proof.
  induction fuel as [|fuel IH]; intros a b H; [discriminate|]. cbn [flood_loop'] in H. apply bind_ok in H as ([s ch] & H1 & H2). apply Stays_flood_iter in H1. cbn [fst] in H1.
  destruct ch; [eapply Stays_trans; [exact H1|eauto]|]. injection H2 as <-. exact H1.
Qed.
Lemma Stays_smooth n surf : forall fuel a b, smooth_loop fuel n surf a = Ok b -> Stays a b.
Proof.
  induction fuel as [|fuel IH]; intros a b H; [discriminate|]. cbn [smooth_loop] in H. apply bind_ok in H as ([s ch] & H1 & H2).
  apply (Stays_ofold2 (mark_one n)) in H1.
  2:{ intros i [u c] u'. unfold mark_one. cbn [fst]. destruct (tree_of u i) eqn:Et; [|same_ok]. destruct (Z.eqb_spec (record_of u i) 2) as [R|R]; [same_ok|]. intros E. apply bind_ok in E as (bad & _ & E). revert E.
      destruct bad; [intros E; injection E as <-; apply Stays_set; right; split; [exact R|rewrite Et; discriminate]|same_ok]. }
  cbn [fst] in H1. apply bind_ok in H2 as (s1 & E1 & H2). apply bind_ok in H2 as (s2 & E2 & H2). apply Stays_refine in E1. apply Stays_refine in E2.
  assert (K : Stays a s2) by (eapply Stays_trans; [exact H1|]; eapply Stays_trans; eauto). destruct ch; [eapply Stays_trans; [exact K|eauto]|]. injection H2 as <-. exact K.
Qed.

Lemma Stays_two a b i : Stays a b -> i < length (s_elems a) -> record_of a i = 2%Z -> record_of b i = 2%Z.
Proof.
  intros H L R. destruct (nth_error (s_elems a) i) as [e|] eqn:E; [|apply nth_error_None in E; lia]. destruct (H i e E) as (e' & E' & _ & T & _).
  rewrite (record_of_nth _ _ _ E') . apply T. now rewrite <- (record_of_nth _ _ _ E).
Qed.

(** With one layer, an extruded element whose record is not 0 after the update of the tree, is deleted. *)
Lemma outer_records n surf ref unref cons st fuel st1 i o p x : settled n st -> update_mesh fuel n surf ref unref cons st = Ok st1 ->
  In (o, i) cons -> is_extruded st o -> (forall c, ~ In (c, o) cons) -> on_leaf st i p x ->
  record_of st1 o = 0%Z \/ record_of st1 o = 2%Z \/ record_of st1 i = 2%Z.
Proof.
  intros S0 E Hin (eo & Eo & Po) Hout O. pose proof (asked_cons ref unref cons st n S0) as Ca. unfold update_mesh in E. cbv zeta in E. fold (asked ref unref cons st) in E.
  set (sa := asked ref unref cons st) in *. apply bind_ok in E as (s1 & E1 & E). apply bind_ok in E as (s2 & E2 & E). apply bind_ok in E as (s3 & E3 & E). apply bind_ok in E as (s4 & E4 & E).
  assert (St : Stays s2 st1).
  { eapply Stays_trans; [eapply Stays_unrefine; eauto|]. eapply Stays_trans; [apply Stays_reset|]. eapply Stays_trans; [apply Stays_unfill|]. eapply Stays_trans; [eapply Stays_flood; eauto|eapply Stays_smooth; eauto]. }
  assert (Sa : Stays sa s2) by (eapply Stays_trans; eapply Stays_refine; eauto).
  assert (Lo : o < length (s_elems st)) by (apply nth_error_Some; congruence). assert (Li : i < length (s_elems st)) by (eapply on_leaf_lt; eauto).
  assert (Ao : nth_error (s_elems sa) o = Some (put_record (wish ref unref o) eo)).
  { unfold sa, asked. rewrite pass_other by exact Hout. now rewrite decide_nth, Eo. }
  assert (Q : record_of st1 o = 0%Z \/ record_of st1 o = 2%Z \/ wish ref unref o = 1%Z).
  { destruct (Stays_trans _ _ _ Sa (Stays_unrefine _ _ _ _ _ E3) o _ Ao) as (e3 & G3 & P3 & _ & R3). cbn [put_record e_path e_record] in R3, P3. specialize (R3 Po).
    assert (G3' : nth_error (s_elems (reset_denied s3)) o = Some (if (e_record e3 =? -1)%Z then put_record 0 e3 else e3)) by (unfold reset_denied; cbn [s_elems]; now rewrite nth_error_map, G3).
    assert (St' : Stays (reset_denied s3) st1). { eapply Stays_trans; [apply Stays_unfill|]. eapply Stays_trans; [eapply Stays_flood; eauto|eapply Stays_smooth; eauto]. }
    destruct (St' o _ G3') as (e1 & G1 & _ & _ & R1). rewrite (record_of_nth _ _ _ G1). pose proof (wish_range ref unref o) as W.
    destruct (Z.eqb_spec (e_record e3) (-1)) as [N|N]; cbn [put_record e_path e_record] in R1; (destruct R1 as [R1|[R1|[R1 R1']]]; [congruence|lia..]). }
  destruct Q as [Q|[Q|Q]]; auto.
  right. right. assert (Wf : record_of sa i = 1%Z). { apply asked_finer; [exact Li|]. right. exists o. split; [exact Hin|]. split; [exact Lo|]. now apply wish_1. }
    assert (At : elem_at sa p = Some i). { unfold elem_at. unfold sa. rewrite asked_tree. destruct O as [_ (x0 & e & Hx & He & Hi & _)]. rewrite Hx, He. now rewrite Nat2Z.id. }
    destruct (refine_both n surf sa Ca) as (s' & E' & _ & _ & K). rewrite E1 in E'. cbn [bind] in E'. assert (s' = s2) by congruence. subst s'. destruct (K p i At Wf) as [K1 _].
    apply (Stays_two s2 st1 i St); [|exact K1]. destruct (nth_error (s_elems sa) i) as [ea|] eqn:Ea; [|apply nth_error_None in Ea; unfold sa in Ea; rewrite asked_length in Ea; lia].
    destruct (Sa i ea Ea) as (e2 & G2 & _). apply nth_error_Some. congruence.
Qed.

(** If no refinement of extruded elements is asked for, their records are 0 after the update of the tree. *)
Lemma pass_quiet : forall cons st, (forall c o e, In (c, o) cons -> nth_error (s_elems st) o = Some e -> e_path e = None ->
    forall ec, nth_error (s_elems st) c = Some ec -> e_path ec = None) ->
  (forall o e, nth_error (s_elems st) o = Some e -> e_path e = None -> (e_record e = 0 \/ e_record e = -1)%Z) ->
  forall o e, nth_error (s_elems (pass_requests cons st)) o = Some e -> e_path e = None -> (e_record e = 0 \/ e_record e = -1)%Z.
Proof.
  induction cons as [|[c o] cons IH]; intros st Hc Hr; [exact Hr|]. cbn [pass_requests fold_left]. apply IH; clear IH.
  - assert (P : forall k e, nth_error (s_elems (pass_one (c, o) st)) k = Some e -> exists e0, nth_error (s_elems st) k = Some e0 /\ e_path e0 = e_path e).
    { intros k e. unfold pass_one. cbn [fst snd]. destruct (nth_error (s_elems st) c) as [oc|]; [|eauto]. cbn [s_elems]. rewrite nth_error_update_nth. destruct (Nat.eqb_spec o k) as [<-|]; [|eauto].
      destruct (nth_error (s_elems st) o) as [e0|]; cbn; [|discriminate]. intros H. injection H as <-. eauto. }
    intros c' o' e Hin He Pe ec Hec. destruct (P _ _ He) as (e0 & G0 & P0). destruct (P _ _ Hec) as (e1 & G1 & P1). rewrite <- P1. eapply Hc; [right; exact Hin|exact G0|congruence|exact G1].
  - intros k e. unfold pass_one. cbn [fst snd]. destruct (nth_error (s_elems st) c) as [oc|] eqn:Ec; [|apply Hr]. cbn [s_elems]. rewrite nth_error_update_nth. destruct (Nat.eqb_spec o k) as [<-|]; [|apply Hr].
    destruct (nth_error (s_elems st) o) as [e0|] eqn:Eo; cbn; [|discriminate]. intros H. injection H as <-. cbn [e_path e_record]. intros Pe.
    specialize (Hc c o e0 (or_introl eq_refl) Eo Pe oc Ec). pose proof (Hr c oc Ec Hc) as R1. pose proof (Hr o e0 Eo Pe) as R0. destruct (Z.eqb_spec (e_record e0) 0); lia.
Qed.
Lemma quiet_records n surf ref unref cons st fuel st1 o : settled n st -> update_mesh fuel n surf ref unref cons st = Ok st1 ->
  (forall c o, In (c, o) cons -> is_extruded st c) -> (forall i, is_extruded st i -> ref i = true -> unref i = true) -> is_extruded st o -> record_of st1 o = 0%Z \/ record_of st1 o = 2%Z.
Proof.
  intros S0 E Hx Hq (eo & Eo & Po). unfold update_mesh in E. cbv zeta in E. fold (asked ref unref cons st) in E.
  set (sa := asked ref unref cons st) in *. apply bind_ok in E as (s1 & E1 & E). apply bind_ok in E as (s2 & E2 & E). apply bind_ok in E as (s3 & E3 & E). apply bind_ok in E as (s4 & E4 & E).
  assert (Sa : Stays sa s2) by (eapply Stays_trans; eapply Stays_refine; eauto).
  assert (Dn : forall i e, nth_error (s_elems (decide ref unref st)) i = Some e -> exists e0, nth_error (s_elems st) i = Some e0 /\ e = put_record (wish ref unref i) e0).
  { intros i e H. rewrite decide_nth in H. destruct (nth_error (s_elems st) i) as [e0|]; [|discriminate]. injection H as <-. eauto. }
  assert (Ao : exists ea, nth_error (s_elems sa) o = Some ea /\ e_path ea = None).
  { destruct (nth_error (s_elems sa) o) as [ea|] eqn:Ea; [|apply nth_error_None in Ea; unfold sa in Ea; rewrite asked_length in Ea; assert (o < length (s_elems st)) by (apply nth_error_Some; congruence); lia].
    exists ea. split; [reflexivity|]. destruct (asked_nth ref unref cons st o eo Eo) as (e' & G & P & _). fold sa in G. congruence. }
  destruct Ao as (ea & Ea & Pa).
  assert (R : (e_record ea = 0 \/ e_record ea = -1)%Z).
  { eapply pass_quiet with (cons := cons) (st := decide ref unref st); [| |exact Ea|exact Pa].
    - intros c o' e Hin He Pe ec Hec. destruct (Dn _ _ Hec) as (e0 & G0 & ->). destruct (Hx c o' Hin) as (e1 & G1 & P1). cbn. congruence.
    - intros i e He Pe. destruct (Dn _ _ He) as (e0 & G0 & ->). cbn [put_record e_record e_path] in *. specialize (Hq i (ex_intro _ e0 (conj G0 Pe))). unfold wish. destruct (ref i), (unref i); cbn; auto. specialize (Hq eq_refl). discriminate. }
  destruct (Stays_trans _ _ _ Sa (Stays_unrefine _ _ _ _ _ E3) o _ Ea) as (e3 & G3 & P3 & _ & R3). specialize (R3 Pa).
  assert (G3' : nth_error (s_elems (reset_denied s3)) o = Some (if (e_record e3 =? -1)%Z then put_record 0 e3 else e3)) by (unfold reset_denied; cbn [s_elems]; now rewrite nth_error_map, G3).
  assert (St' : Stays (reset_denied s3) st1). { eapply Stays_trans; [apply Stays_unfill|]. eapply Stays_trans; [eapply Stays_flood; eauto|eapply Stays_smooth; eauto]. }
  destruct (St' o _ G3') as (e1 & G1 & _ & _ & R1). rewrite (record_of_nth _ _ _ G1).
  destruct (Z.eqb_spec (e_record e3) (-1)) as [N|N]; cbn [put_record e_path e_record] in R1; rewrite P3 in R1; (destruct R1 as [R1|[R1|[R1 R1']]]; [congruence|lia..]).
Qed.
