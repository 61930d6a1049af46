(** The records of denied requests, the deletion of new elements on the surface and the incremental flood fill. *)
From Coq Require Import ZArith List Bool Arith Lia.
From Verif Require Import Outcome Loop Tree_Model Tree_Spec Tree_Proofs Tree_Neighbors Tree_Flood Update_Model Update_Spec
  Update_Proofs1 Update_Proofs2 Update_Proofs3 Update_Proofs4 Update_Proofs5 Update_Proofs6.
Import ListNotations.
Local Open Scope nat_scope.

(** ** [reset_denied] *)
Lemma reset_nth st j : nth_error (s_elems (reset_denied st)) j =
  option_map (fun e => if (e_record e =? -1)%Z then put_record 0 e else e) (nth_error (s_elems st) j).
Proof. cbn [reset_denied s_elems]. apply nth_error_map. Qed.
Lemma reset_record st j : record_of (reset_denied st) j = if (record_of st j =? -1)%Z then 0%Z else record_of st j.
Proof.
  unfold record_of. rewrite reset_nth. destruct (nth_error (s_elems st) j) as [e|]; [cbn|reflexivity].
  now destruct (e_record e =? -1)%Z.
Qed.
Lemma reset_exists st q : exists_at (reset_denied st) q = exists_at st q.
Proof.
  unfold exists_at. change (elem_at (reset_denied st) q) with (elem_at st q). destruct (elem_at st q) as [j|]; [|reflexivity].
  rewrite reset_record. destruct (Z.eqb_spec (record_of st j) (-1)) as [->|]; reflexivity.
Qed.
Lemma reset_grows st : grows st (reset_denied st).
Proof.
  split; [cbn; rewrite map_length; lia|]. intros i e H. rewrite reset_nth, H. cbn. eexists. split; [reflexivity|].
  destruct (Z.eqb_spec (e_record e) (-1)) as [E|E]; cbn; auto. rewrite E. repeat split. discriminate.
Qed.
Lemma reset_cons n st : Cons n st -> Cons n (reset_denied st).
Proof.
  intros [R C]. split; [exact R|]. intros p lf z s H. destruct (C p lf z s H) as (i & e & -> & H1 & H2 & H3).
  exists i. eexists. split; [reflexivity|]. split; [rewrite reset_nth, H1; reflexivity|].
  destruct (Z.eqb_spec (e_record e) (-1)) as [E|E]; cbn; split; auto. intros _. apply H3. rewrite E. discriminate.
Qed.
Lemma reset_whole st : Whole st -> Whole (reset_denied st).
Proof.
  intros W i e p H1 H2 H3. rewrite reset_nth in H1. destruct (nth_error (s_elems st) i) as [e0|] eqn:E; [|discriminate]. cbn in H1.
  injection H1 as <-. change (elem_at st p = Some i). destruct (Z.eqb_spec (e_record e0) (-1)) as [K|K]; cbn in *.
  - apply (W i e0 p E H2). rewrite K. discriminate.
  - apply (W i e0 p E H2 H3).
Qed.
Lemma reset_fil st : Fil st -> Fil (reset_denied st).
Proof. intros F q e s H. rewrite reset_exists. apply (F q e s H). Qed.
Lemma reset_no1 st : No1 st -> No1 (reset_denied st).
Proof.
  intros N q i H. rewrite reset_record. specialize (N q i H). destruct (record_of st i =? -1)%Z; [discriminate|exact N].
Qed.

(** ** [unfill] *)
Definition unfill_step (i : nat) (st : state) : state :=
  match tree_of st i with
  | Some p => if negb (record_of st i =? 2)%Z && is_surface st p then set_record i 2 st else st
  | None => st
  end.
Lemma unfill_eq n0 st : unfill n0 st = fold_left (fun st i => unfill_step i st) (seq n0 (length (s_elems st) - n0)) st.
Proof. reflexivity. Qed.

Lemma unfill_list n : forall l st, Cons n st -> let st' := fold_left (fun st i => unfill_step i st) l st in
  Cons n st' /\ grows st st' /\ (No1 st -> No1 st').
Proof.
  induction l as [|i l IH]; intros st C; cbn [fold_left]; cbn zeta.
  - split; [exact C|]. split; [apply grows_refl|auto].
  - assert (K : Cons n (unfill_step i st) /\ grows st (unfill_step i st) /\ (No1 st -> No1 (unfill_step i st))).
    { unfold unfill_step. destruct (tree_of st i) as [p|]; [|split; [exact C|]; split; [apply grows_refl|auto]].
      destruct (negb (record_of st i =? 2)%Z && is_surface st p); [|split; [exact C|]; split; [apply grows_refl|auto]].
      split; [apply Cons_set; auto|]. split; [apply grows_set; auto|]. intros N q j H. rewrite record_set.
      destruct ((i =? j) && (j <? _)); [discriminate|]. apply (N q j H). }
    destruct K as (K1 & K2 & K3). destruct (IH (unfill_step i st) K1) as (H1 & H2 & H3). split; [exact H1|].
    split; [eapply grows_trans; eauto|]. auto.
Qed.
Lemma unfill_ok n n0 st : Cons n st -> Cons n (unfill n0 st) /\ grows st (unfill n0 st) /\ (No1 st -> No1 (unfill n0 st)).
Proof. intros C. rewrite unfill_eq. apply (unfill_list n _ st C). Qed.

Lemma unfill_nosurf n0 st : NoSurf st -> unfill n0 st = st.
Proof.
  intros S0. rewrite unfill_eq. generalize (seq n0 (length (s_elems st) - n0)). intros l. induction l as [|i l IH]; [reflexivity|].
  cbn [fold_left]. assert (unfill_step i st = st) as ->; [|exact IH]. unfold unfill_step. destruct (tree_of st i) as [p|]; [|reflexivity].
  assert (is_surface st p = false) as ->; [|now rewrite andb_false_r].
  unfold is_surface. destruct (subtree (s_tree st) p) as [x|] eqn:E; [|reflexivity]. apply Z.eqb_neq.
  apply (S0 p (is_leaf x) (t_elem x)). unfold inf, info. now rewrite E.
Qed.

(** ** marking what is already marked *)
Lemma update_nth_same {A} (f : A -> A) : forall l j, (forall e, nth_error l j = Some e -> f e = e) -> update_nth j f l = l.
Proof.
  induction l as [|a l IH]; intros [|j] H; cbn [update_nth]; try reflexivity; f_equal.
  - apply H. reflexivity.
  - apply IH. intros e He. apply H. exact He.
Qed.
Lemma set_record_same st j : record_of st j = 2%Z -> set_record j 2 st = st.
Proof.
  intros H. unfold set_record. rewrite update_nth_same; [now destruct st|]. intros e He. rewrite (record_of_nth _ _ _ He) in H.
  destruct e as [a b c d]. cbn in *. now subst.
Qed.
Lemma delete_children_same st qs : (forall q, In q qs -> exists_at st q = false) -> delete_children qs st = st.
Proof.
  induction qs as [|q qs IH]; intros H; [reflexivity|]. cbn [delete_children fold_left].
  assert ((match elem_at st q with Some j => set_record j 2 st | None => st end) = st) as ->.
  - specialize (H q (or_introl eq_refl)). unfold exists_at in H. destruct (elem_at st q) as [j|]; [|reflexivity].
    apply set_record_same. apply negb_false_iff, Z.eqb_eq in H. exact H.
  - apply IH. intros q' Hq'. apply H. now right.
Qed.

(** ** the flood fill in general: no error, and the mesh stays consistent *)
Definition fl (n : nat) (st st' : state) : Prop := Cons n st' /\ grows st st' /\ (No1 st -> No1 st').
Lemma fl_refl n st : Cons n st -> fl n st st.
Proof. intros C. split; [exact C|]. split; [apply grows_refl|auto]. Qed.
Lemma fl_trans n a b c : fl n a b -> fl n b c -> fl n a c.
Proof. intros (_ & G1 & N1) (C & G2 & N2). split; [exact C|]. split; [eapply grows_trans; eauto|auto]. Qed.

Lemma level_at_path n st p : Cons n st -> inf st p <> None -> level_at st p = length p.
Proof.
  intros [R _] H. unfold level_at. destruct (subtree (s_tree st) p) as [x|] eqn:E; [apply (level_path n st p x R E)|].
  exfalso. apply H. unfold inf, info. now rewrite E.
Qed.

Lemma min_level_ok n st q : Cons n st -> inf st q <> None -> forall dirs m, (forall d, In d dirs -> length d = n) ->
  exists m', min_level n st q dirs m = Ok m'.
Proof.
  intros C Hq. apply inf_node in Hq as [x Hx]. induction dirs as [|d dirs IH]; intros m L; cbn [min_level]; [eauto|].
  destruct (find_neighbors_correct n (s_tree st) q x d (proj1 C) Hx) as (l & _ & E & _); [rewrite (L d (or_introl eq_refl)); lia|].
  rewrite E. cbn [bind]. apply IH. intros d' H. apply L. now right.
Qed.

Lemma face_nb n st p f : Cons n st -> inf st p <> None ->
  exists l x, find_neighbors n (s_tree st) p (face_dir n f) = Ok l /\ find_neighbor n (s_tree st) p (face_dir n f) = Ok (hd_error l) /\
    subtree (s_tree st) p = Some x /\
    forall q, In q l -> exists e s, inf st q = Some (true, e, s).
Proof.
  intros C H. apply inf_node in H as [x Hx].
  destruct (find_neighbors_correct n (s_tree st) p x (face_dir n f) (proj1 C) Hx) as (l & E1 & E2 & _ & H1).
  { rewrite face_dir_length. lia. }
  exists l, x. split; [exact E1|]. split; [exact E2|]. split; [exact Hx|]. intros q Hq. apply H1 in Hq as (y & [Y1 Y2] & _).
  exists (t_elem y), (t_status y). unfold inf, info. rewrite Y1. apply is_leaf_true in Y2. now rewrite Y2.
Qed.

Lemma same_elems_fl n st st' : Cons n st' -> s_elems st' = s_elems st -> (forall q j, elem_at st' q = Some j -> elem_at st q = Some j) -> fl n st st'.
Proof.
  intros C E A. split; [exact C|]. split; [now apply grows_tree|]. intros N q i H. rewrite (record_tree st st' i E). apply (N q i). now apply A.
Qed.

Lemma sync_one_ok n surf p i f st ch : Cons n st -> elem_at st p = Some i ->
  exists st' ch', sync_one n surf p (face_dir n f) (st, ch) = Ok (st', ch') /\ fl n st st' /\ elem_at st' p = Some i.
Proof.
  intros C Hp. pose proof (elem_at_inf st p i Hp) as Hn. unfold sync_one.
  destruct (face_nb n st p f C Hn) as (l & x & _ & E & Hx & Hl). rewrite E. cbn [bind].
  assert (Triv : exists st' ch', Ok (st, ch) = Ok (st', ch') /\ fl n st st' /\ elem_at st' p = Some i).
  { exists st, ch. split; [reflexivity|]. split; [now apply fl_refl|exact Hp]. }
  destruct l as [|q l]; cbn [hd_error]; [exact Triv|]. destruct (Hl q (or_introl eq_refl)) as (qe & qs & Hq).
  destruct (exists_at st q) eqn:Eq; [exact Triv|].
  assert (Hqn : inf st q <> None) by (rewrite Hq; discriminate).
  rewrite (level_at_path n st p C Hn), (level_at_path n st q C Hqn).
  assert (Ref : exists st' ch', (let! st0 := refine_set_status n surf q st in Ok (st0, true)) = Ok (st', ch') /\ fl n st st' /\ elem_at st' p = Some i).
  { destruct (refine_set_status_ok n surf q st qe qs C Hq Eq) as (st' & E' & C' & L' & A' & _). rewrite E'. cbn [bind].
    exists st', true. split; [reflexivity|]. split; [|now rewrite A']. apply same_elems_fl; try assumption. intros q' j H. now rewrite <- A'. }
  destruct (Nat.ltb_spec (length p) (length q)) as [L|L].
  - assert (Eqq : q = removelast q ++ [last q 0]) by (apply removelast_last; intros ->; cbn in L; lia).
    destruct q as [|q0 q']; [cbn in L; lia|]. set (q := q0 :: q') in *. set (parent := removelast q) in *.
    destruct (forallb (fun c => negb (exists_at st c)) (child_paths n parent)) eqn:Ea; [|exact Triv].
    rewrite forallb_forall in Ea.
    destruct (parent_node n st parent (last q 0) [] C) as (pe & ps & Hpar). { rewrite <- Eqq. exact Hqn. }
    destruct (inf_subtree _ _ _ Hpar) as (y & Hy & _). destruct (needs_refine_ok n st parent y (proj1 C) Hy) as (b & Eb & _).
    rewrite Eb. cbn [bind]. destruct b; [exact Triv|].
    rewrite delete_children_same by (intros c Hc; specialize (Ea c Hc); now apply negb_true_iff in Ea).
    destruct (step_unrefine n st parent false pe ps C Hpar) as (st' & E' & C' & L' & A' & _). rewrite E'. cbn [bind].
    exists st', true. split; [reflexivity|]. split.
    + apply same_elems_fl; try assumption. intros r j H. rewrite A' in H. destruct (prefixb parent r && negb (path_eqb r parent)); [discriminate|exact H].
    + rewrite A'. destruct (prefixb parent p) eqn:P; [|exact Hp]. destruct (path_eqb_spec p parent) as [Ep|Np]; [exact Hp|]. exfalso.
      destruct (strict_prefix_child parent p P Np) as (k & r & Ep). apply (f_equal (@List.length nat)) in Eqq. rewrite Ep in L.
      rewrite app_length in *. cbn [List.length] in *. lia.
  - destruct (Nat.ltb_spec (length q + 1) (length p)) as [L2|L2]; [exact Ref|].
    destruct (Nat.ltb_spec (length q) (length p)) as [L3|L3]; [|exact Triv].
    destruct (min_level_ok n st q C Hqn (map (face_dir n) (seq 0 (2 * n))) None) as [m Em].
    { intros d H. apply in_map_iff in H as (g & <- & _). apply face_dir_length. }
    rewrite Em. cbn [bind]. match goal with |- context [if ?b then _ else _] => destruct b end; [exact Ref|exact Triv].
Qed.

Lemma sync_elem_ok n surf i st ch : Cons n st -> exists st' ch', sync_elem n surf i (st, ch) = Ok (st', ch') /\ fl n st st'.
Proof.
  intros C. unfold sync_elem. cbn [fst]. destruct (tree_of st i) as [p|] eqn:Et; [|exists st, ch; split; [reflexivity|now apply fl_refl]].
  destruct (exists_at st p); [|exists st, ch; split; [reflexivity|now apply fl_refl]].
  apply (tree_of_at n st i p C) in Et. generalize (seq 0 (2 * n)). intros l. revert st ch C Et.
  induction l as [|f l IH]; intros st ch C Et; cbn [ofold]; [exists st, ch; split; [reflexivity|now apply fl_refl]|].
  cbn [fst]. rewrite (proj2 (tree_of_at n st i p C) Et).
  destruct (sync_one_ok n surf p i f st ch C Et) as (st1 & ch1 & E1 & F1 & A1). rewrite E1. cbn [bind].
  destruct (IH st1 ch1 (proj1 F1) A1) as (st2 & ch2 & E2 & F2). exists st2, ch2. split; [exact E2|]. eapply fl_trans; eauto.
Qed.

Lemma ofold_fl {A} n (f : A -> state * bool -> outcome (state * bool)) :
  (forall a st ch, Cons n st -> exists st' ch', f a (st, ch) = Ok (st', ch') /\ fl n st st') ->
  forall l st ch, Cons n st -> exists st' ch', ofold f l (st, ch) = Ok (st', ch') /\ fl n st st'.
Proof.
  intros H. induction l as [|a l IH]; intros st ch C; cbn [ofold]; [exists st, ch; split; [reflexivity|now apply fl_refl]|].
  destruct (H a st ch C) as (st1 & ch1 & E1 & F1). rewrite E1. cbn [bind]. destruct (IH st1 ch1 (proj1 F1)) as (st2 & ch2 & E2 & F2).
  exists st2, ch2. split; [exact E2|]. eapply fl_trans; eauto.
Qed.

Lemma fill_one_ok n d q st ch e s : Cons n st -> inf st q = Some (true, e, s) ->
  exists st' ch', fill_one n d q (st, ch) = Ok (st', ch') /\ fl n st st' /\
    (forall r e s, inf st r = Some (true, e, s) -> exists e' s', inf st' r = Some (true, e', s')) /\
    (forall r, inf st r <> None -> inf st' r <> None).
Proof.
  intros C Hq. unfold fill_one.
  destruct (negb (exists_at st q) && negb (is_surface st q)); [|exists st, ch; split; [reflexivity|]; split; [now apply fl_refl|]; eauto].
  destruct (step_add n d st q e s C Hq) as (st1 & E1 & C1 & S1 & A1 & I1). rewrite E1. cbn [bind].
  assert (Hq1 : inf st1 q = Some (true, Some (Z.of_nat (length (s_elems st))), s)) by (rewrite I1, path_eqb_refl; reflexivity).
  destruct (step_status n st1 q 1%Z _ C1 Hq1) as (st2 & E2 & C2 & S2 & A2 & I2). rewrite E2. cbn [bind].
  exists st2, true. split; [reflexivity|]. split; [|split].
  - split; [exact C2|]. split; [eapply grows_trans; [eapply grows_app; exact S1|now apply grows_tree]|].
    intros N r j H. rewrite (record_tree st1 st2 j S2). rewrite A2, A1 in H. destruct (path_eqb_spec r q) as [Er|Nr].
    + injection H as <-. rewrite (record_app_new st st1 _ S1). cbn. discriminate.
    + rewrite (record_app st st1 _ j S1); [apply (N r j H)|]. apply (elem_at_lt n st r j C H).
  - intros r e' s' H. rewrite I2, I1. destruct (path_eqb_spec r q) as [Er|Nr]; cbn [fst]; eauto.
  - intros r H. rewrite I2, I1. destruct (path_eqb_spec r q) as [Er|Nr]; [discriminate|exact H].
Qed.

Lemma fill_list n d : forall l st ch, Cons n st -> (forall q, In q l -> exists e s, inf st q = Some (true, e, s)) ->
  exists st' ch', ofold (fill_one n d) l (st, ch) = Ok (st', ch') /\ fl n st st' /\ (forall r, inf st r <> None -> inf st' r <> None).
Proof.
  induction l as [|q l IH]; intros st ch C H; cbn [ofold]; [exists st, ch; split; [reflexivity|]; split; [now apply fl_refl|auto]|].
  destruct (H q (or_introl eq_refl)) as (e & s & Hq). destruct (fill_one_ok n d q st ch e s C Hq) as (st1 & ch1 & E1 & F1 & K1 & K2).
  rewrite E1. cbn [bind]. destruct (IH st1 ch1 (proj1 F1)) as (st2 & ch2 & E2 & F2 & K3).
  - intros r Hr. destruct (H r (or_intror Hr)) as (e' & s' & Hr'). apply (K1 r e' s' Hr').
  - exists st2, ch2. split; [exact E2|]. split; [eapply fl_trans; eauto|auto].
Qed.

Lemma fill_elem_ok n d i st ch : Cons n st -> exists st' ch', fill_elem n d i (st, ch) = Ok (st', ch') /\ fl n st st'.
Proof.
  intros C. unfold fill_elem. cbn [fst]. destruct (tree_of st i) as [p|] eqn:Et; [|exists st, ch; split; [reflexivity|now apply fl_refl]].
  destruct (exists_at st p); [|exists st, ch; split; [reflexivity|now apply fl_refl]].
  apply (tree_of_at n st i p C), elem_at_inf in Et. generalize (seq 0 (2 * n)). intros l. revert st ch C Et.
  induction l as [|f l IH]; intros st ch C Et; cbn [ofold]; [exists st, ch; split; [reflexivity|now apply fl_refl]|].
  cbn [fst]. destruct (face_nb n st p f C Et) as (nb & x & E & _ & _ & Hnb). rewrite E. cbn [bind].
  destruct (fill_list n d nb st ch C Hnb) as (st1 & ch1 & E1 & F1 & K1). rewrite E1. cbn [bind].
  destruct (IH st1 ch1 (proj1 F1) (K1 p Et)) as (st2 & ch2 & E2 & F2). exists st2, ch2. split; [exact E2|]. eapply fl_trans; eauto.
Qed.

Lemma flood_iter_ok n surf st : Cons n st -> exists st' ch, flood_iter n surf st = Ok (st', ch) /\ fl n st st'.
Proof.
  intros C. unfold flood_iter.
  destruct (ofold_fl n (sync_elem n surf) (fun a st ch => sync_elem_ok n surf a st ch) (container st false ++ container st true) st false C) as (st1 & ch1 & E1 & F1).
  rewrite E1. cbn [bind fst].
  destruct (ofold_fl n (fill_elem n false) (fun a st ch => fill_elem_ok n false a st ch) (container st1 false) st1 ch1 (proj1 F1)) as (st2 & ch2 & E2 & F2).
  rewrite E2. cbn [bind fst].
  destruct (ofold_fl n (fill_elem n true) (fun a st ch => fill_elem_ok n true a st ch) (container st2 true) st2 ch2 (proj1 F2)) as (st3 & ch3 & E3 & F3).
  exists st3, ch3. split; [exact E3|]. eapply fl_trans; [|exact F3]. eapply fl_trans; eauto.
Qed.

Lemma flood_ok n surf : forall fuel st, Cons n st -> flood_loop' fuel n surf st = NoFuel \/ exists st', flood_loop' fuel n surf st = Ok st' /\ fl n st st'.
Proof.
  induction fuel as [|fuel IH]; intros st C; [now left|]. cbn [flood_loop'].
  destruct (flood_iter_ok n surf st C) as (st1 & ch & E1 & F1). rewrite E1. cbn [bind]. destruct ch; [|right; exists st1; auto].
  destruct (IH st1 (proj1 F1)) as [K|(st2 & E2 & F2)]; [now left|right]. exists st2. split; [exact E2|]. eapply fl_trans; eauto.
Qed.

(** ** nothing to do when every leaf has an element *)
Lemma ofold_same {A B} (f : A -> B -> outcome B) b : forall l, (forall a, In a l -> f a b = Ok b) -> ofold f l b = Ok b.
Proof.
  induction l as [|a l IH]; intros H; cbn [ofold]; [reflexivity|]. rewrite (H a (or_introl eq_refl)). cbn [bind].
  apply IH. intros a' Ha. apply H. now right.
Qed.

Lemma flood_fil n surf fuel st : Cons n st -> Fil st -> flood_loop' (S fuel) n surf st = Ok st.
Proof.
  intros C F. assert (E : flood_iter n surf st = Ok (st, false)); [|cbn [flood_loop']; rewrite E; reflexivity].
  unfold flood_iter. rewrite ofold_same.
  - cbn [bind fst]. rewrite ofold_same.
    + cbn [bind fst]. apply ofold_same. intros i _. unfold fill_elem. cbn [fst]. destruct (tree_of st i) as [p|] eqn:Et; [|reflexivity].
      destruct (exists_at st p); [|reflexivity]. apply (tree_of_at n st i p C), elem_at_inf in Et. apply ofold_same. intros f _.
      cbn [fst]. destruct (face_nb n st p f C Et) as (nb & x & E & _ & _ & Hnb). rewrite E. cbn [bind]. apply ofold_same.
      intros q Hq. destruct (Hnb q Hq) as (e & s & K). unfold fill_one. rewrite (F q e s K). reflexivity.
    + intros i _. unfold fill_elem. cbn [fst]. destruct (tree_of st i) as [p|] eqn:Et; [|reflexivity].
      destruct (exists_at st p); [|reflexivity]. apply (tree_of_at n st i p C), elem_at_inf in Et. apply ofold_same. intros f _.
      cbn [fst]. destruct (face_nb n st p f C Et) as (nb & x & E & _ & _ & Hnb). rewrite E. cbn [bind]. apply ofold_same.
      intros q Hq. destruct (Hnb q Hq) as (e & s & K). unfold fill_one. rewrite (F q e s K). reflexivity.
  - intros i _. unfold sync_elem. cbn [fst]. destruct (tree_of st i) as [p|] eqn:Et; [|reflexivity].
    destruct (exists_at st p); [|reflexivity]. pose proof Et as Et'. apply (tree_of_at n st i p C), elem_at_inf in Et. apply ofold_same. intros f _.
    cbn [fst]. rewrite Et'. unfold sync_one. destruct (face_nb n st p f C Et) as (nb & x & _ & E & _ & Hnb). rewrite E. cbn [bind].
    destruct nb as [|q nb]; [reflexivity|]. cbn [hd_error]. destruct (Hnb q (or_introl eq_refl)) as (e & s & K). rewrite (F q e s K). reflexivity.
Qed.
