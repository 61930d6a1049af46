(** The unrefinement loop: effect on nodes and elements, termination. *)
From Coq Require Import ZArith List Bool Arith Lia.
From Verif Require Import Outcome Loop Tree_Model Tree_Spec Tree_Proofs Tree_Neighbors Tree_Flood Update_Model Update_Spec
  Update_Proofs1 Update_Proofs2 Update_Proofs3 Update_Proofs4 Update_Proofs5.
Import ListNotations.
Local Open Scope nat_scope.

Record coarser (n : nat) (st st' : state) : Prop := mk_coarser {
  c_cons : Cons n st';
  c_grows : grows st st';
  c_whole : Whole st -> Whole st';
  c_fil : Fil st -> Fil st';
  c_surf : NoSurf st -> NoSurf st';
  c_rec : forall j, j < length (s_elems st) -> record_of st' j = record_of st j \/
            (record_of st j = -1 /\ (record_of st' j = 0 \/ record_of st' j = 2))%Z;
  c_new : forall j e, length (s_elems st) <= j -> nth_error (s_elems st') j = Some e -> e_record e = 0%Z;
  c_at : forall q j, elem_at st' q = Some j -> j < length (s_elems st) -> elem_at st q = Some j;
  c_keep : forall q j, elem_at st q = Some j -> record_of st j <> (-1)%Z -> record_of st j <> 2%Z -> elem_at st' q = Some j;
  c_lost : forall q, inf st q <> None -> inf st' q = None ->
             exists parent k r, q = parent ++ k :: r /\
               (exists k' j e, k' < 2 ^ n /\ elem_at st (parent ++ [k']) = Some j /\ nth_error (s_elems st) j = Some e /\
                               e_record e = (-1)%Z /\ e_locked e = false) /\
               (Fil st -> r = [] /\ forall k', k' < 2 ^ n -> exists j, elem_at st (parent ++ [k']) = Some j /\ record_of st j = (-1)%Z) }.

Lemma coarser_refl n st : Cons n st -> coarser n st st.
Proof.
  intros C. constructor; auto.
  - apply grows_refl.
  - intros j e L H. exfalso. assert (nth_error (s_elems st) j = None) by (apply nth_error_None; exact L). congruence.
  - intros q H K. contradiction.
Qed.

Lemma coarser_back n a b j : coarser n a b -> record_of b j = (-1)%Z -> j < length (s_elems a) /\ record_of a j = (-1)%Z.
Proof.
  intros H E. destruct (nth_error (s_elems b) j) as [e|] eqn:Ee; [|unfold record_of in E; rewrite Ee in E; discriminate].
  destruct (Nat.lt_ge_cases j (length (s_elems a))) as [L|L].
  - split; [exact L|]. destruct (c_rec _ _ _ H j L) as [K|[K [K'|K']]]; congruence.
  - pose proof (c_new _ _ _ H j e L Ee). rewrite (record_of_nth _ _ _ Ee) in E. congruence.
Qed.

Lemma coarser_trans n a b c : coarser n a b -> coarser n b c -> coarser n a c.
Proof.
  intros F G. pose proof (proj1 (c_grows _ _ _ F)) as L1. constructor.
  - apply (c_cons _ _ _ G).
  - eapply grows_trans; [apply (c_grows _ _ _ F)|apply (c_grows _ _ _ G)].
  - intros H. apply (c_whole _ _ _ G), (c_whole _ _ _ F), H.
  - intros H. apply (c_fil _ _ _ G), (c_fil _ _ _ F), H.
  - intros H. apply (c_surf _ _ _ G), (c_surf _ _ _ F), H.
  - intros j L. destruct (c_rec _ _ _ F j L) as [E1|[E1 E2]]; destruct (c_rec _ _ _ G j ltac:(lia)) as [K1|[K1 K2]].
    + left. congruence.
    + right. split; [congruence|exact K2].
    + right. split; [exact E1|]. rewrite K1. exact E2.
    + right. split; assumption.
  - intros j e L H. destruct (Nat.lt_ge_cases j (length (s_elems b))) as [L2|L2].
    + destruct (nth_error (s_elems b) j) as [eb|] eqn:Eb; [|apply nth_error_None in Eb; lia].
      pose proof (c_new _ _ _ F j eb L Eb) as Hb. rewrite <- (record_of_nth _ _ _ H).
      destruct (c_rec _ _ _ G j L2) as [K|[K K']]; rewrite (record_of_nth _ _ _ Eb) in K; [congruence|]. rewrite Hb in K. discriminate.
    + apply (c_new _ _ _ G j e L2 H).
  - intros q j H L. apply (c_at _ _ _ F q j); [|exact L]. apply (c_at _ _ _ G q j H). lia.
  - intros q j H N1 N2. assert (L : j < length (s_elems a)).
    { destruct (Nat.lt_ge_cases j (length (s_elems a))) as [L|L]; [exact L|]. exfalso. apply N2. unfold record_of.
      apply nth_error_None in L. now rewrite L. }
    destruct (c_rec _ _ _ F j L) as [E1|[E1 E2]]; [|contradiction].
    apply (c_keep _ _ _ G); [apply (c_keep _ _ _ F); assumption|congruence|congruence].
  - intros q Ha Hc. destruct (inf b q) as [v|] eqn:Eb.
    + destruct (c_lost _ _ _ G q) as (parent & k & r & -> & (k' & j & e & K1 & K2 & K3 & K4 & K5) & H2).
      { intros X. rewrite X in Eb. discriminate. } { exact Hc. }
      exists parent, k, r. split; [reflexivity|]. split.
      * destruct (coarser_back n a b j F) as [L R]; [now rewrite (record_of_nth _ _ _ K3)|].
        destruct (nth_error (s_elems a) j) as [ea|] eqn:Ea; [|apply nth_error_None in Ea; lia].
        destruct (proj2 (c_grows _ _ _ F) j ea Ea) as (e' & P1 & P2 & P3 & P4 & _).
        exists k', j, ea. split; [exact K1|]. split; [apply (c_at _ _ _ F _ _ K2 L)|]. split; [exact Ea|].
        split; [now rewrite <- (record_of_nth _ _ _ Ea)|congruence].
      * intros Fa. destruct (H2 (c_fil _ _ _ F Fa)) as [Hr Hall]. split; [exact Hr|]. intros k0 Hk0.
        destruct (Hall k0 Hk0) as (j0 & Q1 & Q2). destruct (coarser_back n a b j0 F Q2) as [L0 R0]. exists j0.
        split; [apply (c_at _ _ _ F _ _ Q1 L0)|exact R0].
    + apply (c_lost _ _ _ F q Ha Eb).
Qed.

(** ** marking the children *)
Lemma delete_children_ok qs : forall st,
  let st' := delete_children qs st in
  s_tree st' = s_tree st /\ length (s_elems st') = length (s_elems st) /\
  (forall j e, nth_error (s_elems st) j = Some e ->
     nth_error (s_elems st') j = Some (if existsb (fun q => match elem_at st q with Some i => i =? j | None => false end) qs
                                       then put_record 2 e else e)).
Proof.
  induction qs as [|q qs IH]; intros st; cbn [delete_children fold_left].
  - split; [reflexivity|]. split; [reflexivity|]. intros j e H. exact H.
  - set (st1 := match elem_at st q with Some j => set_record j 2 st | None => st end).
    specialize (IH st1). cbn zeta in IH. fold (delete_children qs st1). destruct IH as (T & L & H).
    assert (T1 : s_tree st1 = s_tree st) by (unfold st1; now destruct (elem_at st q)).
    assert (L1 : length (s_elems st1) = length (s_elems st)) by (unfold st1; destruct (elem_at st q); [apply length_set|reflexivity]).
    split; [congruence|]. split; [congruence|]. intros j e He. cbn [existsb].
    assert (X : existsb (fun q0 => match elem_at st1 q0 with Some i => i =? j | None => false end) qs =
                existsb (fun q0 => match elem_at st q0 with Some i => i =? j | None => false end) qs).
    { clear - T1. induction qs as [|a qs IH]; [reflexivity|]. cbn [existsb]. rewrite IH, (elem_at_tree st1 st a T1). reflexivity. }
    rewrite <- X. destruct (elem_at st q) as [i|] eqn:Eq; cbn [orb].
    + unfold st1 in H at 1. specialize (H j (if i =? j then put_record 2 e else e)).
      rewrite nth_set, He in H. cbn [option_map] in H.
      rewrite H by (destruct (i =? j); reflexivity). destruct (i =? j); cbn [orb]; [|reflexivity].
      match goal with |- context [existsb ?f ?l] => destruct (existsb f l) end; reflexivity.
    + specialize (H j e). unfold st1 in H at 1. apply H. exact He.
Qed.

Lemma has_existent_below x r : forall y z, subtree x r = Some y -> t_elem y = Some z -> has_existent x = true.
Proof.
  revert x. induction r as [|k r IH]; intros x y z Hs Hz; cbn [subtree] in Hs.
  - injection Hs as ->. destruct y; cbn in *. now rewrite Hz.
  - destruct (nth_error (t_children x) k) as [ch|] eqn:E; [|discriminate]. destruct x as [l c s e cs]. cbn in *.
    destruct e; [reflexivity|]. apply existsb_exists. exists ch. split; [apply nth_error_In in E; exact E|]. eapply IH; eauto.
Qed.

Lemma leaf_below x : exists r y, subtree x r = Some y /\ t_children y = [].
Proof.
  induction x as [l c s e cs IH] using tree_ind'. destruct cs as [|c0 cs]; [exists [], (Node l c s e []); split; reflexivity|].
  inversion IH as [|? ? (r & y & H1 & H2) _]; subst. exists (0 :: r), y. split; [exact H1|exact H2].
Qed.

(** ** one step *)
Lemma child_agrees_leaf n st parent k q' j : Cons n st -> child_agrees st (parent ++ [k]) = true -> k < 2 ^ n ->
  prefixb (parent ++ [k]) q' = true -> elem_at st q' = Some j ->
  q' = parent ++ [k] /\ (record_of st j = 2 \/ record_of st j = -1)%Z /\ (record_of st j = (-1)%Z -> exists e s, inf st q' = Some (true, e, s)).
Proof.
  intros C A Hk P E. apply prefixb_spec in P as [r ->]. unfold child_agrees in A.
  destruct (subtree (s_tree st) (parent ++ [k])) as [ch|] eqn:Es; [|discriminate].
  destruct (elem_at_cons n st _ j C E) as (e & lf & s & K1 & K2 & K3 & K4). destruct (inf_subtree _ _ _ K3) as (y & Hy & Ey).
  assert (Hex : has_existent ch = true).
  { rewrite subtree_app, Es in Hy. injection Ey as _ Ey _. eapply has_existent_below; [exact Hy|]. symmetry. exact Ey. }
  rewrite Hex, andb_true_r in A. destruct (is_leaf ch) eqn:El; cbn [negb] in A; [|discriminate].
  assert (r = []).
  { destruct r as [|k' r]; [reflexivity|]. exfalso. rewrite subtree_app, Es in Hy. cbn [subtree] in Hy. apply is_leaf_true in El.
    rewrite El in Hy. destruct k'; discriminate. }
  subst r. rewrite app_nil_r in *. split; [reflexivity|]. rewrite E in A. split.
  - destruct (Z.eqb_spec (record_of st j) 2); [now left|]. apply Z.eqb_eq in A. now right.
  - intros R. rewrite K4 in K3; [eauto|]. rewrite <- (record_of_nth _ _ _ K1). lia.
Qed.

Lemma strict_prefix_child parent q : prefixb parent q = true -> q <> parent -> exists k r, q = parent ++ k :: r.
Proof. intros H N. apply prefixb_spec in H as [r ->]. destruct r as [|k r]; [rewrite app_nil_r in N; contradiction|eauto]. Qed.

Lemma node_child_lt n st q k r : Cons n st -> inf st (q ++ k :: r) <> None -> k < 2 ^ n.
Proof.
  intros [R _] H. apply inf_node in H as [x Hx]. destruct (reachable_wf n _ R) as (W & _).
  pose proof (path_entries n _ _ x W Hx) as F. apply Forall_app in F as [_ F]. now inversion F.
Qed.

Lemma elem_at_inj n st p q i : Cons n st -> elem_at st p = Some i -> elem_at st q = Some i -> p = q.
Proof.
  intros C H K. destruct (elem_at_cons n st p i C H) as (e & _ & _ & H1 & H2 & _).
  destruct (elem_at_cons n st q i C K) as (e' & _ & _ & K1 & K2 & _). congruence.
Qed.
Lemma elem_at_inf st q i : elem_at st q = Some i -> inf st q <> None.
Proof. intros H K. rewrite elem_at_info, K in H. discriminate. Qed.

Lemma parent_node n st parent k r : Cons n st -> inf st (parent ++ k :: r) <> None -> exists e s, inf st parent = Some (false, e, s).
Proof.
  intros _ H. destruct (inf st parent) as [[[lf e] s]|] eqn:E.
  - destruct lf; [|eauto]. exfalso. apply H. apply (leaf_child st parent e s). exact E.
  - exfalso. apply H. unfold inf, info in *. rewrite subtree_app. destruct (subtree (s_tree st) parent); [discriminate|reflexivity].
Qed.

Lemma coarsen_ok n st parent i k d : Cons n st -> k < 2 ^ n -> elem_at st (parent ++ [k]) = Some i -> record_of st i = (-1)%Z ->
  (forall e, nth_error (s_elems st) i = Some e -> e_locked e = false) ->
  (forall q, In q (child_paths n parent) -> child_agrees st q = true) ->
  exists st1 st', on_tree n (Unrefine parent) (delete_children (child_paths n parent) st) = Ok st1 /\ add_elem n d parent st1 = Ok st' /\
    coarser n st st' /\ record_of st' i = 2%Z.
Proof.
  intros C Hk Hi Hr Hl HA. set (qs := child_paths n parent) in *.
  pose proof (delete_children_ok qs st) as H0. cbn zeta in H0. set (st0 := delete_children qs st) in *. destruct H0 as (T0 & L0 & N0).
  destruct (parent_node n st parent k [] C) as (pe & ps & Hp). { apply (elem_at_inf st _ i Hi). }
  (* records after marking *)
  assert (R0 : forall j, record_of st0 j = record_of st j \/ (record_of st j = -1 /\ record_of st0 j = 2)%Z).
  { intros j. destruct (nth_error (s_elems st) j) as [e|] eqn:E.
    - rewrite (record_of_nth _ _ _ E), (record_of_nth _ _ _ (N0 j e E)).
      destruct (existsb _ qs) eqn:X; [|now left]. apply existsb_exists in X as (q & Q1 & Q2).
      destruct (elem_at st q) as [j'|] eqn:Eq; [|discriminate]. apply Nat.eqb_eq in Q2. subst j'.
      apply child_paths_in in Q1 as (k' & K1 & ->).
      destruct (child_agrees_leaf n st parent k' (parent ++ [k']) j C) as (_ & [V|V] & _); try assumption.
      + apply HA. apply child_paths_in. eauto.
      + apply prefixb_refl.
      + rewrite (record_of_nth _ _ _ E) in V. left. cbn. congruence.
      + rewrite (record_of_nth _ _ _ E) in V. right. split; [exact V|reflexivity].
    - left. unfold record_of. rewrite E. assert (nth_error (s_elems st0) j = None) as ->; [|reflexivity].
      apply nth_error_None. rewrite L0. now apply nth_error_None. }
  assert (R2 : forall q j, In q qs -> elem_at st q = Some j -> record_of st0 j = 2%Z).
  { intros q j Q1 Q2. destruct (elem_at_cons n st q j C Q2) as (e & _ & _ & E & _).
    rewrite (record_of_nth _ _ _ (N0 j e E)).
    destruct (existsb _ qs) eqn:X; [reflexivity|]. exfalso.
    assert (Y : existsb (fun q => match elem_at st q with Some i => i =? j | None => false end) qs = true); [|congruence].
    apply existsb_exists. exists q. split; [exact Q1|]. rewrite Q2. apply Nat.eqb_refl. }
  assert (Rk : forall j, (forall q, In q qs -> elem_at st q <> Some j) -> nth_error (s_elems st0) j = nth_error (s_elems st) j).
  { intros j Hj. destruct (nth_error (s_elems st) j) as [e|] eqn:E.
    - rewrite (N0 j e E). destruct (existsb _ qs) eqn:X; [|reflexivity]. exfalso. apply existsb_exists in X as (q & Q1 & Q2).
      destruct (elem_at st q) as [j'|] eqn:Eq; [|discriminate]. apply Nat.eqb_eq in Q2. subst j'. apply (Hj q Q1 Eq).
    - apply nth_error_None. rewrite L0. now apply nth_error_None. }
  assert (C0 : Cons n st0).
  { destruct C as [R C]. split; [rewrite T0; exact R|]. intros p lf z s H. rewrite (inf_tree st0 st p T0) in H.
    destruct (C _ _ _ _ H) as (j & e & -> & H1 & H2 & H3). exists j.
    exists (if existsb (fun q => match elem_at st q with Some i => i =? j | None => false end) qs then put_record 2 e else e).
    split; [reflexivity|]. split; [apply N0, H1|]. destruct (existsb _ qs); cbn; (split; [assumption|]); [intros X; contradiction|assumption]. }
  assert (Hp0 : inf st0 parent = Some (false, pe, ps)) by (rewrite (inf_tree st0 st parent T0); exact Hp).
  destruct (step_unrefine n st0 parent false pe ps C0 Hp0) as (st1 & E1 & C1 & S1 & A1 & I1).
  assert (Hp1 : inf st1 parent = Some (true, pe, ps)) by (rewrite I1, path_eqb_refl; reflexivity).
  destruct (step_add n d st1 parent pe ps C1 Hp1) as (st' & E2 & C2 & S2 & A2 & I2).
  exists st1, st'. split; [exact E1|]. split; [exact E2|].
  assert (L1 : length (s_elems st1) = length (s_elems st)) by congruence.
  assert (R' : forall j, j < length (s_elems st) -> record_of st' j = record_of st0 j).
  { intros j L. rewrite (record_app st1 st' _ j S2) by lia. apply record_tree. exact S1. }
  assert (NE : exists_at st1 parent = false).
  { destruct (exists_at st1 parent) eqn:X; [|reflexivity]. exfalso. apply exists_at_spec in X as (j & X1 & X2).
    rewrite A1, path_eqb_refl in X1. cbn [negb] in X1. rewrite andb_false_r in X1. rewrite (record_tree st0 st1 j S1) in X2.
    destruct (elem_at_cons n st0 parent j C0 X1) as (e & lf & s & Y1 & Y2 & Y3 & Y4).
    rewrite (record_of_nth _ _ _ Y1) in X2. specialize (Y4 X2). subst lf. rewrite Hp0 in Y3. discriminate. }
  assert (AT : forall q, elem_at st0 q = elem_at st q) by (intros q; apply elem_at_tree; exact T0).
  (* an element below the parent is at a child *)
  assert (BE : forall q j, prefixb parent q = true -> q <> parent -> elem_at st q = Some j ->
               In q qs /\ (record_of st j = 2 \/ record_of st j = -1)%Z).
  { intros q j P N E. destruct (strict_prefix_child parent q P N) as (k' & r & ->).
    pose proof (node_child_lt n st parent k' r C (elem_at_inf _ _ _ E)) as Hk'.
    destruct (child_agrees_leaf n st parent k' (parent ++ k' :: r) j C) as (Q & V & _); try assumption.
    - apply HA. apply child_paths_in. eauto.
    - change (parent ++ k' :: r) with (parent ++ [k'] ++ r). rewrite app_assoc. apply prefixb_app.
    - rewrite Q. split; [|exact V]. apply child_paths_in. eauto. }
  split.
  2:{ rewrite R' by (apply (elem_at_lt n st _ i C Hi)). apply (R2 (parent ++ [k]) i); [|exact Hi]. apply child_paths_in. eauto. }
  constructor.
  - exact C2.
  - split; [rewrite S2, app_length; lia|]. intros j e H.
    assert (Lj : j < length (s_elems st)) by (apply nth_error_Some; congruence).
    exists (if existsb (fun q => match elem_at st q with Some i => i =? j | None => false end) qs then put_record 2 e else e).
    split. { rewrite S2, nth_error_app1 by lia. rewrite S1. apply N0, H. }
    destruct (existsb _ qs); cbn; auto.
  - (* Whole *)
    intros W. apply (Whole_add n d st1 parent st' C1); try assumption.
    intros j e q H1 H2 H3. rewrite S1 in H1.
    assert (Lj : j < length (s_elems st)) by (rewrite <- L0; apply nth_error_Some; congruence).
    destruct (nth_error (s_elems st) j) as [e0|] eqn:E0; [|apply nth_error_None in E0; lia].
    rewrite (N0 j e0 E0) in H1. destruct (existsb _ qs) eqn:X.
    { injection H1 as <-. cbn in H3. contradiction. }
    injection H1 as <-. pose proof (W j e0 q E0 H2 H3) as Wj. rewrite A1, AT.
    destruct (prefixb parent q) eqn:P; [|exact Wj]. destruct (path_eqb_spec q parent) as [Eq|Nq]; [exact Wj|]. exfalso. cbn [negb andb] in *.
    destruct (BE q j P Nq Wj) as [Q _]. assert (existsb (fun q => match elem_at st q with Some i => i =? j | None => false end) qs = true); [|congruence].
    apply existsb_exists. exists q. split; [exact Q|]. rewrite Wj. apply Nat.eqb_refl.
  - (* Fil *)
    intros Fl q e s H. rewrite I2 in H. apply exists_at_spec. destruct (path_eqb_spec q parent) as [Eq|Nq].
    + exists (length (s_elems st1)). rewrite A2, Eq, path_eqb_refl. split; [reflexivity|].
      rewrite (record_app_new st1 st' _ S2). cbn. discriminate.
    + rewrite I1 in H. destruct (path_eqb_spec q parent); [contradiction|]. destruct (prefixb parent q) eqn:P; [discriminate|].
      rewrite (inf_tree st0 st q T0) in H. pose proof (Fl q e s H) as X. apply exists_at_spec in X as (j & X1 & X2).
      exists j. rewrite A2. destruct (path_eqb_spec q parent); [contradiction|]. rewrite A1, P, AT. cbn [andb]. split; [exact X1|].
      rewrite R' by (apply (elem_at_lt n st q j C X1)).
      assert (K : nth_error (s_elems st0) j = nth_error (s_elems st) j).
      { apply Rk. intros q' Q1 Q2. pose proof (elem_at_inj n st q q' j C X1 Q2). subst q'.
        apply child_paths_in in Q1 as (k' & _ & ->). rewrite prefixb_app in P. discriminate. }
      unfold record_of in *. rewrite K. exact X2.
  - intros Sf q lf e s H. rewrite I2 in H. destruct (path_eqb_spec q parent) as [Eq|Nq].
    + injection H as _ _ <-. apply (Sf _ _ _ _ Hp).
    + rewrite I1 in H. destruct (path_eqb_spec q parent); [contradiction|]. destruct (prefixb parent q); [discriminate|].
      rewrite (inf_tree st0 st q T0) in H. apply (Sf _ _ _ _ H).
  - intros j L. rewrite R' by exact L. destruct (R0 j) as [V|[V V']]; [now left|right]. auto.
  - intros j e L H. rewrite S2, nth_app_one in H. destruct (Nat.ltb_spec j (length (s_elems st1))); [lia|].
    destruct (j =? length (s_elems st1)); [|discriminate]. injection H as <-. reflexivity.
  - intros q j H L. rewrite A2 in H. destruct (path_eqb_spec q parent) as [Eq|Nq]; [injection H as <-; lia|].
    rewrite A1 in H. destruct (prefixb parent q && negb (path_eqb q parent)); [discriminate|]. now rewrite <- AT.
  - intros q j H N1 N2. rewrite A2. destruct (path_eqb_spec q parent) as [Eq|Nq].
    + exfalso. subst q. destruct (elem_at_cons n st parent j C H) as (e & lf & s & Y1 & Y2 & Y3 & Y4).
      rewrite (record_of_nth _ _ _ Y1) in N2. specialize (Y4 N2). subst lf. rewrite Hp in Y3. discriminate.
    + rewrite A1, AT. destruct (prefixb parent q) eqn:P; [|exact H]. exfalso. destruct (BE q j P Nq H) as [_ [V|V]]; contradiction.
  - intros q Hq Hn. rewrite I2 in Hn. destruct (path_eqb_spec q parent) as [Eq|Nq]; [discriminate|].
    rewrite I1 in Hn. destruct (path_eqb_spec q parent); [contradiction|].
    destruct (prefixb parent q) eqn:P; [|rewrite (inf_tree st0 st q T0) in Hn; contradiction].
    destruct (strict_prefix_child parent q P Nq) as (k' & r & ->). exists parent, k', r. split; [reflexivity|].
    assert (Hk' : k' < 2 ^ n) by (apply (node_child_lt n st parent k' r C Hq)).
    split.
    + destruct (elem_at_cons n st _ i C Hi) as (e & _ & _ & E & _). exists k, i, e.
      split; [exact Hk|]. split; [exact Hi|]. split; [exact E|]. split; [now rewrite <- (record_of_nth _ _ _ E)|now apply Hl].
    + intros Fl.
      (* every child is a leaf with an element with record -1: otherwise there is a filled leaf below *)
      assert (LF : forall k0, k0 < 2 ^ n -> exists j e s, elem_at st (parent ++ [k0]) = Some j /\ record_of st j = (-1)%Z /\
                     inf st (parent ++ [k0]) = Some (true, e, s)).
      { intros k0 Hk0.
        assert (Hc : exists x, subtree (s_tree st) (parent ++ [k0]) = Some x).
        { destruct (inf_subtree _ _ _ Hp) as (x & Hx & Ev). injection Ev as Ev _ _.
          destruct (reachable_wf n _ (proj1 C)) as (W & _). destruct (wf_subtree n _ parent x W Hx) as [Wx _].
          destruct (child_exists n x k0 Wx) as [ch Hch]; [intros K; apply is_leaf_true in K; congruence|exact Hk0|].
          exists ch. rewrite subtree_app, Hx. cbn [subtree]. now rewrite Hch. }
        destruct Hc as [x Hx]. destruct (leaf_below x) as (r0 & y & Hy & Ly).
        assert (Hq0 : inf st ((parent ++ [k0]) ++ r0) = Some (true, t_elem y, t_status y)).
        { unfold inf, info. rewrite subtree_app, Hx, Hy. apply is_leaf_true in Ly. now rewrite Ly. }
        pose proof (Fl _ _ _ Hq0) as X. apply exists_at_spec in X as (j & X1 & X2).
        assert (Ag : child_agrees st (parent ++ [k0]) = true) by (apply HA; apply child_paths_in; eauto).
        destruct (child_agrees_leaf n st parent k0 _ j C Ag Hk0 (prefixb_app (parent ++ [k0]) r0) X1) as (Q & V & Lf).
        destruct V as [V|V]; [contradiction|]. destruct (Lf V) as (e & s & Z). rewrite Q in *. exists j, e, s. auto. }
      split.
      * destruct r as [|k1 r]; [reflexivity|]. exfalso. destruct (LF k' Hk') as (j & e & s & _ & _ & Z). apply Hq.
        change (parent ++ k' :: k1 :: r) with (parent ++ [k'] ++ k1 :: r). rewrite app_assoc. apply (leaf_child st (parent ++ [k']) e s), Z.
      * intros k0 Hk0. destruct (LF k0 Hk0) as (j & _ & _ & Z1 & Z2 & _). exists j. auto.
Qed.

(** ** the loop *)
Lemma coarser_set n st i : Cons n st -> record_of st i = (-1)%Z -> coarser n st (set_record i 0 st).
Proof.
  intros C R. assert (N : record_of st i <> 2%Z) by (rewrite R; discriminate). constructor.
  - apply Cons_set; auto.
  - apply grows_set. auto.
  - intros W. apply Whole_set; auto.
  - intros Fl q e s H. rewrite inf_set in H. specialize (Fl q e s H). apply exists_at_spec in Fl as (j & F1 & F2).
    apply exists_at_spec. exists j. rewrite elem_at_set. split; [exact F1|]. rewrite record_set. now destruct ((i =? j) && (j <? _)).
  - intros H q lf e s. rewrite inf_set. apply H.
  - intros j L. rewrite record_set. destruct (Nat.eqb_spec i j) as [->|]; cbn [andb]; [|now left].
    destruct (Nat.ltb_spec j (length (s_elems st))); [right|lia]. auto.
  - intros j e L H. exfalso. rewrite nth_set in H. apply nth_error_None in L. rewrite L in H. destruct (i =? j); discriminate.
  - intros q j H _. exact H.
  - intros q j H _ _. exact H.
  - intros q H K. rewrite inf_set in K. contradiction.
Qed.

Lemma removelast_last (p : path) : p <> [] -> p = removelast p ++ [last p 0].
Proof. intros H. apply app_removelast_last. exact H. Qed.

Lemma unrefine_one_ok n i st ch : Cons n st -> exists st' ch', unrefine_one n i (st, ch) = Ok (st', ch') /\ coarser n st st' /\ (ch' = true -> ch = true \/ (record_of st i = -1 /\ record_of st' i = 2)%Z).
Proof.
  intros C. unfold unrefine_one.
  destruct (tree_of st i) as [p|] eqn:Et; [|exists st, ch; split; [reflexivity|]; split; [now apply coarser_refl|auto]].
  destruct (Z.eqb_spec (record_of st i) (-1)) as [Er|Er]; [|exists st, ch; split; [reflexivity|]; split; [now apply coarser_refl|auto]].
  assert (Hp0 : p <> [] -> exists parent k, p = parent ++ [k] /\ parent = removelast p).
  { intros Hp. exists (removelast p), (last p 0). split; [now apply removelast_last|reflexivity]. }
  assert (At : elem_at st p = Some i) by (apply (tree_of_at n st i p C), Et).
  destruct p as [|p0 p']; [exists st, ch; split; [reflexivity|]; split; [now apply coarser_refl|auto]|].
  destruct (Hp0 ltac:(discriminate)) as (parent & k & Ep & Epar). rewrite <- Epar. clear Hp0 Epar.
  rewrite Ep in At.
  destruct (elem_at_cons n st _ i C At) as (e & lf & s & K1 & K2 & K3 & K4). rewrite K1.
  destruct (e_locked e) eqn:El; cbn [negb andb].
  { exists (set_record i 0 st), ch. split; [reflexivity|]. split; [now apply coarser_set|auto]. }
  destruct (forallb (child_agrees st) (child_paths n parent)) eqn:Ea.
  2:{ exists (set_record i 0 st), ch. split; [reflexivity|]. split; [now apply coarser_set|auto]. }
  rewrite forallb_forall in Ea.
  destruct (parent_node n st parent k [] C (elem_at_inf st _ i At)) as (pe & ps & Hp).
  destruct (inf_subtree _ _ _ Hp) as (x & Hx & _). destruct (needs_refine_ok n st parent x (proj1 C) Hx) as (b & Eb & _).
  rewrite Eb. cbn [bind]. destruct b; [exists st, ch; split; [reflexivity|]; split; [now apply coarser_refl|auto]|].
  assert (Hk : k < 2 ^ n) by (apply (node_child_lt n st parent k [] C), (elem_at_inf st _ i At)).
  destruct (coarsen_ok n st parent i k (existsb (child_def st) (child_paths n parent)) C Hk At Er) as (st1 & st' & E1 & E2 & E3 & E4).
  { intros e' He. congruence. } { exact Ea. }
  rewrite E1. cbn [bind]. rewrite E2. cbn [bind]. exists st', true. split; [reflexivity|]. split; [exact E3|]. auto.
Qed.

Lemma unrefine_list n : forall l st ch, Cons n st -> exists st' ch', ofold (unrefine_one n) l (st, ch) = Ok (st', ch') /\ coarser n st st' /\ (ch' = true -> ch = true \/ exists i, (record_of st i = -1 /\ record_of st' i <> -1)%Z).
Proof.
  induction l as [|i l IH]; intros st ch C; cbn [ofold].
  - exists st, ch. split; [reflexivity|]. split; [now apply coarser_refl|auto].
  - destruct (unrefine_one_ok n i st ch C) as (st1 & ch1 & E1 & F1 & H1). rewrite E1. cbn [bind].
    destruct (IH st1 ch1 (c_cons _ _ _ F1)) as (st2 & ch2 & E2 & F2 & H2). exists st2, ch2. split; [exact E2|].
    split; [eapply coarser_trans; eauto|]. intros K. destruct (H2 K) as [K1|(j & K1 & K2)].
    + destruct (H1 K1) as [K2|[K2 K3]]; [now left|right]. exists i. split; [exact K2|]. intros K4.
      destruct (coarser_back n st1 st2 i F2 K4) as [_ K5]. congruence.
    + right. exists j. split; [|exact K2]. apply (coarser_back n st st1 j F1 K1).
Qed.

Definition asking (st : state) : list nat := filter (fun i => record_of st i =? -1)%Z (seq 0 (length (s_elems st))).
Lemma asking_in st i : In i (asking st) <-> record_of st i = (-1)%Z.
Proof.
  unfold asking. rewrite filter_In, in_seq, Z.eqb_eq. split; [tauto|]. intros H. split; [|exact H]. split; [lia|].
  cbn. apply nth_error_Some. intros K. unfold record_of in H. rewrite K in H. discriminate.
Qed.
Lemma asking_nodup st : NoDup (asking st).
Proof. apply NoDup_filter, seq_NoDup. Qed.

Lemma unrefine_total n orig : forall k st, Cons n st -> length (asking st) < k ->
  exists st', unrefine_loop k n orig st = Ok st' /\ coarser n st st'.
Proof.
  induction k as [|k IH]; intros st C Hk; [lia|]. cbn [unrefine_loop]. unfold unrefine_sweep.
  destruct (unrefine_list n (orig false ++ orig true) st false C) as (st1 & ch & E1 & F1 & H1). rewrite E1. cbn [bind].
  destruct ch; [|exists st1; auto]. destruct (H1 eq_refl) as [K|(i & K1 & K2)]; [discriminate|].
  destruct (IH st1 (c_cons _ _ _ F1)) as (st2 & E2 & F2).
  - enough (length (asking st1) < length (asking st)) by lia.
    change (length (i :: asking st1) <= length (asking st)). apply NoDup_incl_length.
    + constructor; [|apply asking_nodup]. rewrite asking_in. exact K2.
    + intros j [<-|Hj]; apply asking_in; [exact K1|]. apply asking_in in Hj. apply (coarser_back n st st1 j F1 Hj).
  - exists st2. split; [exact E2|]. eapply coarser_trans; eauto.
Qed.

Lemma unrefine_ok n orig : forall k st, Cons n st -> unrefine_loop k n orig st = NoFuel \/ exists st', unrefine_loop k n orig st = Ok st' /\ coarser n st st'.
Proof.
  induction k as [|k IH]; intros st C; [now left|]. cbn [unrefine_loop]. unfold unrefine_sweep.
  destruct (unrefine_list n (orig false ++ orig true) st false C) as (st1 & ch & E1 & F1 & H1). rewrite E1. cbn [bind].
  destruct ch; [|right; exists st1; auto]. destruct (IH st1 (c_cons _ _ _ F1)) as [K|(st2 & E2 & F2)]; [now left|right].
  exists st2. split; [exact E2|]. eapply coarser_trans; eauto.
Qed.

Lemma coarser_no1 n st st' : Cons n st -> coarser n st st' -> No1 st -> No1 st'.
Proof.
  intros C F N q i H. destruct (Nat.lt_ge_cases i (length (s_elems st))) as [L|L].
  - pose proof (c_at _ _ _ F q i H L) as K. specialize (N q i K). destruct (c_rec _ _ _ F i L) as [E|[E [E'|E']]]; congruence.
  - destruct (elem_at_cons n st' q i (c_cons _ _ _ F) H) as (e & _ & _ & E & _). rewrite (record_of_nth _ _ _ E).
    rewrite (c_new _ _ _ F i e L E). discriminate.
Qed.
