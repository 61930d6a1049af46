(** [deform]: which elements are deformed *)
From Coq Require Import ZArith List Bool Arith Lia Permutation.
From Verif Require Import Outcome Loop ListUtil Tree_Model Tree_Spec Tree_Proofs Tree_Neighbors Tree_Flood Tree_Thm Update_Model Update_Spec Update_Proofs1
  Update_Proofs2 Update_Proofs3 Update_Proofs4 Trim_Model Trim_Spec Trim_Proofs1 Trim_Proofs2 Trim_Proofs3.
Import ListNotations.
Local Open Scope nat_scope.

Lemma elem_at_inj n st p q i : Cons n st -> elem_at st p = Some i -> elem_at st q = Some i -> p = q.
Proof. intros C H1 H2. apply (tree_of_at n st i p C) in H1. apply (tree_of_at n st i q C) in H2. congruence. Qed.

(** [st] differs from [st0] in the records 0 and 3 of elements on nodes *)
Record Same (n : nat) (st0 st : state) : Prop := {
  sm_tree : s_tree st = s_tree st0;
  sm_length : length (s_elems st) = length (s_elems st0);
  sm_elem : forall i e0, nth_error (s_elems st0) i = Some e0 -> exists e, nth_error (s_elems st) i = Some e /\
    e_path e = e_path e0 /\ e_def e = e_def e0 /\ e_locked e = e_locked e0 /\
    (e_record e = e_record e0 \/ (exists p, elem_at st0 p = Some i) /\ e_record e0 <> 2%Z /\ (e_record e = 0 \/ e_record e = 3)%Z)
}.
(** elements on nodes are marked for deletion or not at all *)
Definition Clean (st : state) : Prop := forall p i, elem_at st p = Some i -> record_of st i = 0%Z \/ record_of st i = 2%Z.

Section deform.
Variables (n : nat) (st0 : state).
Hypothesis (C0 : Cons n st0) (K0 : Clean st0).

Lemma Same_refl : Same n st0 st0.
Proof. split; auto. intros i e0 H. exists e0. auto 10. Qed.

Lemma Same_elem_at st q : Same n st0 st -> elem_at st q = elem_at st0 q.
Proof. intros S. apply elem_at_tree, S. Qed.
Lemma Same_def st i : Same n st0 st -> def_of st i = def_of st0 i.
Proof.
  intros S. unfold def_of. destruct (nth_error (s_elems st0) i) as [e0|] eqn:E.
  - destruct (sm_elem n st0 st S i e0 E) as (e & -> & _ & D & _). exact D.
  - apply nth_error_None in E. rewrite <- (sm_length n st0 st S) in E. apply nth_error_None in E. now rewrite E.
Qed.
Lemma Same_record st p i : Same n st0 st -> elem_at st0 p = Some i ->
  (record_of st i = 2 <-> record_of st0 i = 2)%Z /\ (record_of st0 i <> 2 -> record_of st i = 0 \/ record_of st i = 3)%Z.
Proof.
  intros S H. destruct (elem_at_cons n st0 p i C0 H) as (e0 & lf & s & E0 & _). destruct (sm_elem n st0 st S i e0 E0) as (e & E & _ & _ & _ & R).
  pose proof (K0 p i H) as K. rewrite (record_of_nth _ _ _ E0) in *. rewrite (record_of_nth _ _ _ E). destruct R as [->|(_ & R1 & R2)]; split; lia.
Qed.
Lemma Same_exists st q : Same n st0 st -> exists_at st q = exists_at st0 q.
Proof.
  intros S. unfold exists_at. rewrite (Same_elem_at st q S). destruct (elem_at st0 q) as [i|] eqn:E; [|reflexivity].
  destruct (Same_record st q i S E) as [[R1 R2] _]. f_equal. destruct (Z.eqb_spec (record_of st i) 2), (Z.eqb_spec (record_of st0 i) 2); auto; tauto.
Qed.
Lemma Same_Cons st : Same n st0 st -> Cons n st.
Proof.
  intros S. destruct C0 as [R C]. split; [rewrite (sm_tree _ _ _ S); exact R|]. intros p lf z s H. rewrite (inf_tree st st0) in H by apply S.
  destruct (C p lf z s H) as (i & e0 & -> & E0 & P0 & L0). destruct (sm_elem n st0 st S i e0 E0) as (e & E & P & _ & _ & Q).
  exists i, e. repeat split; try congruence. intros Hr. apply L0. destruct Q as [Q|(_ & Q & _)]; congruence.
Qed.
Lemma Same_set st p i r : Same n st0 st -> elem_at st0 p = Some i -> record_of st0 i <> 2%Z -> r = 0%Z \/ r = 3%Z -> Same n st0 (set_record i r st).
Proof.
  intros S H Hr R. split; [apply S|rewrite length_set; apply S|]. intros j e0 E0. destruct (sm_elem n st0 st S j e0 E0) as (e & E & P & D & L & Q).
  rewrite nth_set, E. destruct (Nat.eqb_spec i j) as [->|]; [|exists e; auto]. exists (put_record r e). cbn. repeat split; auto.
  right. split; [eauto|]. rewrite <- (record_of_nth _ _ _ E0). auto.
Qed.

(** whether the element on a node is to be deformed *)
Definition dd (st : state) (q : path) : bool := match elem_at st q with Some i => is_def st i | None => false end.

Lemma is_def_exists st p i : Same n st0 st -> elem_at st0 p = Some i -> is_def st i = true -> exists_at st0 p = true.
Proof.
  intros S H D. apply exists_at_spec. exists i. split; [exact H|]. intros R. apply (Same_record st p i S H) in R. unfold is_def in D. rewrite R in D.
  destruct (def_of st i); discriminate.
Qed.
Lemma dd_exists st p : Same n st0 st -> dd st p = true -> exists_at st0 p = true.
Proof.
  intros S H. unfold dd in H. rewrite (Same_elem_at st p S) in H. destruct (elem_at st0 p) as [i|] eqn:E; [|discriminate]. eapply is_def_exists; eauto.
Qed.

Lemma make_def_Same st p i : Same n st0 st -> elem_at st0 p = Some i -> record_of st0 i <> 2%Z ->
  Same n st0 (make_def i st) /\ forall q, dd (make_def i st) q = if path_eqb q p then true else dd st q.
Proof.
  intros S H R. unfold make_def. split; [apply (Same_set st p i); auto; destruct (def_of st i); auto|]. intros q. unfold dd.
  rewrite elem_at_set, (Same_elem_at st q S). destruct (path_eqb_spec q p) as [->|Hne].
  - rewrite H. unfold is_def, def_of. rewrite nth_set, Nat.eqb_refl.
    destruct (elem_at_cons n st0 p i C0 H) as (e0 & lf & s & E0 & _). destruct (sm_elem n st0 st S i e0 E0) as (e & E & _).
    rewrite E. cbn. rewrite record_set, Nat.eqb_refl. assert (L : i <? length (s_elems st) = true) by (apply Nat.ltb_lt, nth_error_Some; congruence).
    rewrite L. cbn. destruct (e_def e); reflexivity.
  - destruct (elem_at st0 q) as [j|] eqn:Ej; [|reflexivity]. assert (i <> j) by (intros ->; apply Hne; eapply (elem_at_inj n st0); eassumption).
    unfold is_def, def_of. rewrite nth_set, record_set. destruct (Nat.eqb_spec i j); [contradiction|]. reflexivity.
Qed.

(** ** first loop *)
Lemma undeform_Same st i : Same n st0 st -> (forall q, dd st q = true -> exists j, elem_at st0 q = Some j /\ def_of st0 j = true) ->
  Same n st0 (undeform_one i st) /\
  forall q, dd (undeform_one i st) q = match elem_at st0 q with Some j => if i =? j then false else dd st q | None => false end.
Proof.
  intros S D. unfold undeform_one. pose proof (Same_Cons st S) as C.
  assert (Z : forall q, elem_at st0 q = None -> dd st q = false) by (intros q H; unfold dd; now rewrite (Same_elem_at st q S), H).
  destruct (tree_of st i) as [p|] eqn:Et.
  2:{ split; [exact S|]. intros q. destruct (elem_at st0 q) as [j|] eqn:E; [|auto]. destruct (Nat.eqb_spec i j) as [->|]; [exfalso|reflexivity].
      rewrite <- (Same_elem_at st q S) in E. apply (tree_of_at n st j q C) in E. congruence. }
  apply (tree_of_at n st i p C) in Et. rewrite (Same_elem_at st p S) in Et.
  destruct (Same_record st p i S Et) as [R2 R03]. rewrite (Same_def st i S).
  destruct (Z.eqb_spec (record_of st i) 2) as [R|R]; cbn [negb andb].
  - split; [exact S|]. intros q. destruct (elem_at st0 q) as [j|] eqn:E; [|auto]. destruct (Nat.eqb_spec i j) as [->|]; [|reflexivity].
    unfold dd. rewrite (Same_elem_at st q S), E. unfold is_def. rewrite R. now destruct (def_of st j).
  - destruct (def_of st0 i) eqn:Ed.
    + split; [apply (Same_set st p i); auto; tauto|]. intros q. unfold dd. rewrite elem_at_set, (Same_elem_at st q S).
      destruct (elem_at st0 q) as [j|] eqn:E; [|reflexivity]. unfold is_def, def_of. rewrite nth_set, record_set.
      destruct (Nat.eqb_spec i j) as [->|]; [|reflexivity]. pose proof (Same_def st j S) as D1. unfold def_of in D1, Ed.
      destruct (nth_error (s_elems st) j) as [e|] eqn:Ee; cbn [option_map put_record e_def andb negb]; [|rewrite Ed in D1; discriminate]. rewrite Ed in D1.
      assert (L : j <? length (s_elems st) = true) by (apply Nat.ltb_lt, nth_error_Some; congruence). rewrite L, D1. reflexivity.
    + split; [exact S|]. intros q. destruct (elem_at st0 q) as [j|] eqn:E; [|auto]. destruct (Nat.eqb_spec i j) as [->|]; [|reflexivity].
      destruct (dd st q) eqn:Q; [|reflexivity]. destruct (D q Q) as (k & Hk & Dk). congruence.
Qed.

Lemma dd_start q : dd st0 q = true -> exists j, elem_at st0 q = Some j /\ def_of st0 j = true.
Proof.
  unfold dd. intros H. destruct (elem_at st0 q) as [j|] eqn:E; [|discriminate]. exists j. split; [reflexivity|]. unfold is_def in H.
  destruct (K0 q j E) as [R|R]; rewrite R in H; destruct (def_of st0 j); try reflexivity; discriminate.
Qed.

Lemma undeform_all l : forall st, Same n st0 st -> (forall q, dd st q = true -> exists j, elem_at st0 q = Some j /\ def_of st0 j = true) ->
  let st1 := fold_left (fun st i => undeform_one i st) l st in
  Same n st0 st1 /\ forall q, dd st1 q = true -> dd st q = true /\ forall j, elem_at st0 q = Some j -> ~ In j l.
Proof.
  induction l as [|i l IH]; intros st S D; cbn [fold_left].
  - split; [exact S|]. intros q H. split; [exact H|]. intros j _ [].
  - destruct (undeform_Same st i S D) as [S1 D1].
    assert (D2 : forall q, dd (undeform_one i st) q = true -> dd st q = true /\ forall j, elem_at st0 q = Some j -> i <> j).
    { intros q H. rewrite D1 in H. destruct (elem_at st0 q) as [j|] eqn:E; [|discriminate]. destruct (Nat.eqb_spec i j); [discriminate|].
      split; [exact H|]. intros j' E'. congruence. }
    destruct (IH _ S1) as [S2 D3]. { intros q H. apply D, D2, H. }
    split; [exact S2|]. intros q H. destruct (D3 q H) as [H1 H2]. destruct (D2 q H1) as [H3 H4]. split; [exact H3|].
    intros j E [->|Hj]; [now apply (H4 j E)|now apply (H2 j E)].
Qed.

Lemma undeform_done l : Permutation l (seq 0 (length (s_elems st0))) ->
  let st1 := fold_left (fun st i => undeform_one i st) l st0 in Same n st0 st1 /\ forall q, dd st1 q = false.
Proof.
  intros P st1. destruct (undeform_all l st0 Same_refl dd_start) as [S D]. split; [exact S|]. intros q.
  destruct (dd st1 q) eqn:E; [exfalso|reflexivity]. destruct (D q E) as [E1 E2]. destruct (dd_start q E1) as (j & Hj & _). apply (E2 j Hj).
  apply (Permutation_in j (Permutation_sym P)), in_seq. pose proof (elem_at_lt n st0 q j C0 Hj). lia.
Qed.

(** ** second loop *)
Hypothesis (X0 : forall p x q y d sign, occupied st0 p x -> occupied st0 q y -> d < n -> unit_sign sign -> share_face n d sign x y ->
  covered_face n st0 x d sign).

Lemma at_surface_Same st nb : Same n st0 st -> at_surface st nb = at_surface st0 nb.
Proof.
  intros S. unfold at_surface. destruct nb as [|q nb]; [reflexivity|]. rewrite (Same_elem_at st q S). destruct (elem_at st0 q) as [j|] eqn:E; [|reflexivity].
  destruct (Same_record st q j S E) as [R _]. destruct (Z.eqb_spec (record_of st j) 2), (Z.eqb_spec (record_of st0 j) 2); auto; tauto.
Qed.
Lemma at_surface_exists q nb : at_surface st0 (q :: nb) = negb (exists_at st0 q).
Proof. cbn. unfold exists_at. destruct (elem_at st0 q); [|reflexivity]. now rewrite negb_involutive. Qed.

Lemma at_surface_covered p x d sign nb : occupied st0 p x -> d < n -> unit_sign sign ->
  (forall q, In q nb <-> exists y, leaf_at (s_tree st0) q y /\ share_face n d sign x y) ->
  (at_surface st0 nb = true <-> ~ covered_face n st0 x d sign).
Proof.
  intros Hp Hd Hs H. destruct nb as [|q nb].
  - cbn. split; [discriminate|]. intros N. exfalso. apply N. intros q y Hy F. exfalso. apply (H q). eauto.
  - rewrite at_surface_exists, negb_true_iff. destruct (proj1 (H q) (or_introl eq_refl)) as (y & Hy & F). split.
    + intros N Cv. assert (exists_at st0 q = true); [|congruence]. apply (exists_occupied n st0 q y C0 Hy), (Cv q y Hy F).
    + intros N. destruct (exists_at st0 q) eqn:E; [exfalso|reflexivity]. apply N. apply (exists_occupied n st0 q y C0 Hy) in E.
      apply (X0 p x q y d sign Hp E Hd Hs F).
Qed.

Lemma all_neighbors_ok t p x faces : reachable n t -> subtree t p = Some x ->
  exists nbs, all_neighbors n t p faces = Ok nbs /\ length nbs = length faces /\
    forall k f, nth_error faces k = Some f -> find_neighbors n t p (face_dir n f) = Ok (nth k nbs []).
Proof.
  intros R Hx. induction faces as [|f faces IH]; cbn [all_neighbors]; [exists []; repeat split; intros [|k] f; discriminate|].
  destruct (tree_find_neighbors n t p x (face_dir n f) R Hx) as (nb & E & _); [rewrite face_dir_length; lia|]. rewrite E. cbn [bind].
  destruct IH as (nbs & E2 & L & H). rewrite E2. cbn [bind]. exists (nb :: nbs). split; [reflexivity|]. split; [cbn; congruence|].
  intros [|k] g Hg; cbn in *; [congruence|apply H, Hg].
Qed.

Lemma def_neighbors_Same nb : forall st, Same n st0 st -> let st1 := fold_left (fun st q => def_neighbor q st) nb st in
  Same n st0 st1 /\ forall q, dd st1 q = true <-> dd st q = true \/ In q nb /\ exists_at st0 q = true.
Proof.
  induction nb as [|q0 nb IH]; intros st S; cbn [fold_left].
  - split; [exact S|]. intros q. split; [auto|]. intros [H|[[] _]]; exact H.
  - assert (K : Same n st0 (def_neighbor q0 st) /\ forall q, dd (def_neighbor q0 st) q = true <-> dd st q = true \/ q = q0 /\ exists_at st0 q = true).
    { unfold def_neighbor. rewrite (Same_elem_at st q0 S). destruct (elem_at st0 q0) as [j|] eqn:E.
      2:{ split; [exact S|]. intros q. split; [auto|]. intros [H|[-> H]]; [exact H|]. apply exists_at_spec in H as (j & Hj & _). congruence. }
      destruct (Same_record st q0 j S E) as [R _]. destruct (Z.eqb_spec (record_of st j) 2) as [Er|Er].
      - split; [exact S|]. intros q. split; [auto|]. intros [H|[-> H]]; [exact H|]. apply exists_at_spec in H as (j' & Hj & Hr).
        assert (j' = j) by congruence. subst j'. tauto.
      - destruct (make_def_Same st q0 j S E) as [S1 D1]; [tauto|]. split; [exact S1|]. intros q. rewrite D1.
        destruct (path_eqb_spec q q0) as [->|Hne].
        + split; [|reflexivity]. intros _. right. split; [reflexivity|]. apply exists_at_spec. exists j. split; [exact E|tauto].
        + split; [auto|]. intros [H|[-> _]]; [exact H|contradiction]. }
    destruct K as [S1 D1]. destruct (IH _ S1) as [S2 D2]. split; [exact S2|]. intros q. rewrite D2, D1. cbn [In]. intuition (subst; auto).
Qed.

(** the nodes whose elements get deformed because of the exposed faces of [p] *)
Definition near (p q : path) : Prop :=
  exists x d sign, occupied st0 p x /\ d < n /\ unit_sign sign /\ ~ covered_face n st0 x d sign /\
    (q = p \/ exists d' sign' y, d' < n /\ d' <> d /\ unit_sign sign' /\ occupied st0 q y /\ share_face n d' sign' x y).

Lemma deform_one_ok i st : Same n st0 st -> exists st1, deform_one n i st = Ok st1 /\ Same n st0 st1 /\
  forall q, dd st1 q = true <-> dd st q = true \/ exists p, elem_at st0 p = Some i /\ near p q.
Proof.
  intros S. unfold deform_one. pose proof (Same_Cons st S) as C. destruct (tree_of st i) as [p|] eqn:Et.
  2:{ exists st. split; [reflexivity|]. split; [exact S|]. intros q. split; [auto|]. intros [H|(p & Hp & _)]; [exact H|].
      rewrite <- (Same_elem_at st p S) in Hp. apply (tree_of_at n st i p C) in Hp. congruence. }
  apply (tree_of_at n st i p C) in Et. rewrite (Same_elem_at st p S) in Et.
  assert (Up : forall p', elem_at st0 p' = Some i -> p' = p) by (intros p' H; eapply (elem_at_inj n st0); eassumption).
  destruct (Same_record st p i S Et) as [R2 _]. destruct (Z.eqb_spec (record_of st i) 2) as [R|R].
  { exists st. split; [reflexivity|]. split; [exact S|]. intros q. split; [auto|]. intros [H|(p' & Hp & x & d & sign & O & _)]; [exact H|exfalso].
    apply Up in Hp. subst p'. destruct (occupied_elem n st0 p x C0 O) as (j & Hj & Rj). assert (j = i) by congruence. subst j. tauto. }
  assert (Xp : exists_at st0 p = true) by (apply exists_at_spec; exists i; split; [exact Et|tauto]).
  destruct (exists_leaf n st0 p C0 Xp) as (e & s & Ip). destruct (inf_subtree _ _ _ Ip) as (x & Hx & Ex). injection Ex as Lf _ _.
  assert (Lx : leaf_at (s_tree st0) p x) by (split; [exact Hx|apply is_leaf_true; congruence]).
  assert (Ox : occupied st0 p x) by (apply (exists_occupied n st0 p x C0 Lx), Xp).
  rewrite (sm_tree n st0 st S). destruct (all_neighbors_ok (s_tree st0) p x (seq 0 (2 * n)) (proj1 C0) Hx) as (nbs & En & Ln & Hn). rewrite En. cbn [bind].
  rewrite seq_length in Ln.
  assert (Hf : forall f, f < 2 * n -> forall q, In q (nth f nbs []) <-> exists y, leaf_at (s_tree st0) q y /\ share_face n (f / 2) (face_sign f) x y).
  { intros f Hf. destruct (face_nbs n st0 p x (f / 2) (face_sign f) C0 Lx) as (nb & E & H); [apply Nat.div_lt_upper_bound; lia|apply unit_face|].
    rewrite face_of_back in E. assert (Es : nth_error (seq 0 (2 * n)) f = Some f).
    { rewrite nth_error_nth' with (d := 0) by (rewrite seq_length; exact Hf). now rewrite seq_nth by exact Hf. }
    rewrite (Hn f f Es) in E. injection E as ->. exact H. }
  assert (Hs : forall f, f < 2 * n -> (nth f (map (at_surface st) nbs) false = true <-> ~ covered_face n st0 x (f / 2) (face_sign f))).
  { intros f Hf'. change false with (at_surface st []). rewrite map_nth, (at_surface_Same st _ S).
    apply (at_surface_covered p x (f / 2) (face_sign f)); auto; [apply Nat.div_lt_upper_bound; lia|apply unit_face]. }
  destruct (existsb (fun b => b) (map (at_surface st) nbs)) eqn:B.
  - assert (Fb : exists d sign, d < n /\ unit_sign sign /\ ~ covered_face n st0 x d sign).
    { apply existsb_exists in B as (b & Hb & ->). apply (In_nth _ _ false) in Hb as (f & Lf' & Ef). rewrite map_length, Ln in Lf'.
      exists (f / 2), (face_sign f). split; [apply Nat.div_lt_upper_bound; lia|]. split; [apply unit_face|]. now apply Hs. }
    destruct (make_def_Same st p i S Et) as [S1 D1]; [tauto|].
    assert (G : forall fs st1, (forall f, In f fs -> f < 2 * n) -> Same n st0 st1 ->
      let st2 := fold_left (fun st i_face => if def_face n (map (at_surface st) nbs) i_face then fold_left (fun st q => def_neighbor q st) (nth i_face nbs []) st else st) fs st1 in
      Same n st0 st2 /\ forall q, dd st2 q = true <-> dd st1 q = true \/ exists f, In f fs /\ def_face n (map (at_surface st0) nbs) f = true /\ In q (nth f nbs []) /\ exists_at st0 q = true).
    { assert (Es : forall st1, Same n st0 st1 -> map (at_surface st1) nbs = map (at_surface st0) nbs).
      { intros st1 S'. apply map_ext. intros nb. now apply at_surface_Same. }
      induction fs as [|f fs IH]; intros st1 Hfs S'; cbn [fold_left].
      - split; [exact S'|]. intros q. split; [auto|]. intros [H|(f & [] & _)]; exact H.
      - rewrite (Es st1 S'). destruct (def_face n (map (at_surface st0) nbs) f) eqn:Df.
        + destruct (def_neighbors_Same (nth f nbs []) st1 S') as [S2 D2]. destruct (IH _ (fun g Hg => Hfs g (or_intror Hg)) S2) as [S3 D3].
          split; [exact S3|]. intros q. rewrite D3, D2. split.
          * intros [[H|H]|(g & G1 & G2)]; [auto|right; exists f; split; [now left|auto]|right; exists g; split; [now right|auto]].
          * intros [H|(g & [<-|G1] & G2 & G3)]; [auto|auto|right; exists g; auto].
        + destruct (IH st1 (fun g Hg => Hfs g (or_intror Hg)) S') as [S3 D3]. split; [exact S3|]. intros q. rewrite D3. split.
          * intros [H|(g & G1 & G2)]; [auto|right; exists g; split; [now right|auto]].
          * intros [H|(g & [<-|G1] & G2 & G3)]; [auto|congruence|right; exists g; auto]. }
    assert (E1 : forall fs st1, Same n st0 st1 -> (forall f, In f fs -> f < 2 * n) ->
      fold_left (fun st' i_face => if def_face n (map (at_surface st) nbs) i_face then fold_left (fun st q => def_neighbor q st) (nth i_face nbs []) st' else st') fs st1 =
      fold_left (fun st i_face => if def_face n (map (at_surface st) nbs) i_face then fold_left (fun st q => def_neighbor q st) (nth i_face nbs []) st else st) fs st1).
    { assert (Es : forall st1, Same n st0 st1 -> map (at_surface st1) nbs = map (at_surface st) nbs).
      { intros st1 S'. apply map_ext. intros nb. now rewrite (at_surface_Same st1 nb S'), (at_surface_Same st nb S). }
      induction fs as [|f fs IH]; intros st1 S' Hfs; cbn [fold_left]; [reflexivity|]. rewrite (Es st1 S'). apply IH; [|intros g Hg; apply Hfs; now right].
      destruct (def_face n (map (at_surface st) nbs) f); [apply def_neighbors_Same, S'|exact S']. }
    assert (Lfs : forall f, In f (seq 0 (2 * n)) -> f < 2 * n) by (intros f H; apply in_seq in H; lia).
    rewrite (E1 _ _ S1 Lfs). destruct (G (seq 0 (2 * n)) _ Lfs S1) as [S2 D2]. eexists. split; [reflexivity|]. split; [exact S2|].
    intros q. rewrite D2, D1. clear G E1. destruct (path_eqb_spec q p) as [->|Hne].
    + split; [|auto]. intros _. right. exists p. split; [exact Et|]. destruct Fb as (d & sign & F1 & F2 & F3). exists x, d, sign. auto 10.
    + split.
      * intros [H|(f & F1 & F2 & F3 & F4)]; [auto|right]. exists p. split; [exact Et|]. apply Lfs in F1.
        unfold def_face in F2. apply existsb_exists in F2 as (g & G1 & G2). apply Lfs in G1. apply andb_true_iff in G2 as [G2 G3].
        apply negb_true_iff, Nat.eqb_neq in G2. rewrite <- (map_ext _ _ (fun nb => at_surface_Same st nb S)) in G3. apply (Hs g G1) in G3.
        apply (Hf f F1) in F3 as (y & Y1 & Y2). exists x, (g / 2), (face_sign g). split; [exact Ox|]. split; [apply Nat.div_lt_upper_bound; lia|].
        split; [apply unit_face|]. split; [exact G3|]. right. exists (f / 2), (face_sign f), y. split; [apply Nat.div_lt_upper_bound; lia|].
        split; [auto|]. split; [apply unit_face|]. split; [|exact Y2]. now apply (exists_occupied n st0 q y C0 Y1).
      * intros [H|(p' & Hp & x' & d & sign & O & N1 & N2 & N3 & N4)]; [auto|right]. apply Up in Hp. subst p'.
        pose proof (leaf_unique st0 p x' x (proj1 O) Lx) as ->. destruct N4 as [->|(d' & sign' & y & M1 & M2 & M3 & M4 & M5)]; [contradiction|].
        exists (face_of d' sign'). pose proof (face_of_lt n d' sign' M1) as L'. pose proof (face_of_lt n d sign N1) as L. split; [apply in_seq; lia|]. split.
        -- unfold def_face. apply existsb_exists. exists (face_of d sign). split; [apply in_seq; lia|]. rewrite !face_of_half.
           apply andb_true_iff. split; [apply negb_true_iff, Nat.eqb_neq; auto|]. rewrite <- (map_ext _ _ (fun nb => at_surface_Same st nb S)).
           apply (Hs _ L). now rewrite face_of_half, face_of_sign.
        -- split; [apply (Hf _ L'); exists y; rewrite face_of_half, face_of_sign by exact M3; split; [apply M4|exact M5]|].
           apply (exists_occupied n st0 q y C0 (proj1 M4)), M4.
  - exists st. split; [reflexivity|]. split; [exact S|]. intros q. split; [auto|].
    intros [H|(p' & Hp & x' & d & sign & O & N1 & N2 & N3 & _)]; [exact H|exfalso]. apply Up in Hp. subst p'.
    pose proof (leaf_unique st0 p x' x (proj1 O) Lx) as ->. pose proof (face_of_lt n d sign N1) as L.
    assert (K : nth (face_of d sign) (map (at_surface st) nbs) false = true) by (apply (Hs _ L); now rewrite face_of_half, face_of_sign).
    assert (existsb (fun b => b) (map (at_surface st) nbs) = true); [|congruence]. apply existsb_exists. exists true. split; [|reflexivity].
    rewrite <- K. apply nth_In. rewrite map_length. lia.
Qed.

Lemma deform_loop l : forall st, Same n st0 st -> exists st1, ofold (deform_one n) l st = Ok st1 /\ Same n st0 st1 /\
  forall q, dd st1 q = true <-> dd st q = true \/ exists p i, In i l /\ elem_at st0 p = Some i /\ near p q.
Proof.
  induction l as [|i l IH]; intros st S; cbn [ofold].
  - exists st. split; [reflexivity|]. split; [exact S|]. intros q. split; [auto|]. intros [H|(p & i & [] & _)]; exact H.
  - destruct (deform_one_ok i st S) as (s1 & E1 & S1 & D1). rewrite E1. cbn [bind]. destruct (IH s1 S1) as (s2 & E2 & S2 & D2).
    exists s2. split; [exact E2|]. split; [exact S2|]. intros q. rewrite D2, D1. split.
    + intros [[H|(p & P1 & P2)]|(p & j & P1 & P2 & P3)]; [auto|right; exists p, i; split; [now left|auto]|right; exists p, j; split; [now right|auto]].
    + intros [H|(p & j & [<-|P1] & P2 & P3)]; [auto|left; right; eauto|right; eauto].
Qed.
End deform.
