(** The deletion of extruded elements and all that follows the smoothing in an update. *)
From Coq Require Import ZArith QArith List Bool Arith Lia Permutation.
From Verif Require Import Outcome Loop Tree_Model Tree_Spec Tree_Proofs Tree_Neighbors Tree_Flood Update_Model Update_Spec Update_Proofs1 Update_Proofs4 Update_Proofs8 Update_Proofs9
  Update_Proofs11 Trim_Model Trim_Spec Trim_Proofs1 Trim_Proofs2 Trim_Proofs3 Trim_Proofs4 Trim_Proofs5 Trim_Proofs6 Trim_Proofs7 Trim_Thm Join_Model Join_Spec Join_Proofs1 Join_Proofs2 Join_Proofs3 Join_Proofs4.
Import ListNotations.
Local Open Scope nat_scope.

(** Only extruded elements were marked. *)
Definition Dropped (a b : state) : Prop := s_tree b = s_tree a /\ length (s_elems b) = length (s_elems a) /\
  forall i e, nth_error (s_elems a) i = Some e -> exists e', nth_error (s_elems b) i = Some e' /\ e_path e' = e_path e /\ e_def e' = e_def e /\
    (e_record e' = e_record e \/ e_record e' = 2%Z /\ e_path e = None).
Lemma Dropped_refl a : Dropped a a. Proof. split; [reflexivity|]. split; [reflexivity|]. intros i e H. exists e. auto. Qed.
Lemma Dropped_trans a b c : Dropped a b -> Dropped b c -> Dropped a c.
Proof.
  intros (T & L & H) (T' & L' & K). split; [congruence|]. split; [congruence|]. intros i e E. destruct (H i e E) as (e1 & E1 & P1 & D1 & R1). destruct (K i e1 E1) as (e2 & E2 & P2 & D2 & R2).
  exists e2. split; [exact E2|]. split; [congruence|]. split; [congruence|]. destruct R2 as [R2|[R2 Q2]]; [rewrite R2|right; split; congruence]. destruct R1 as [R1|[R1 Q1]]; auto.
Qed.
Lemma Dropped_set a o : is_extruded a o -> Dropped a (set_record o 2 a).
Proof.
  intros (eo & Eo & Po). split; [reflexivity|]. split; [apply length_set|]. intros i e E. rewrite nth_set, E. destruct (Nat.eqb_spec o i) as [->|]; cbn.
  - exists (put_record 2 e). assert (e = eo) by congruence. subst eo. split; [reflexivity|]. split; [reflexivity|]. split; [reflexivity|]. right. split; [reflexivity|exact Po].
  - exists e. auto.
Qed.
Lemma Dropped_extruded a b o : Dropped a b -> is_extruded a o -> is_extruded b o.
Proof. intros (_ & _ & H) (e & E & P). destruct (H o e E) as (e' & E' & P' & _). exists e'. split; [exact E'|congruence]. Qed.
Lemma Dropped_two a b i : Dropped a b -> record_of a i = 2%Z -> record_of b i = 2%Z.
Proof.
  intros (_ & L & H). unfold record_of. destruct (nth_error (s_elems a) i) as [e|] eqn:E.
  - intros R. destruct (H i e E) as (e' & -> & _ & _ & [K|[K _]]); congruence.
  - intros _. apply nth_error_None in E. rewrite <- L in E. apply nth_error_None in E. now rewrite E.
Qed.
Lemma Dropped_elem_at a b q : Dropped a b -> elem_at b q = elem_at a q.
Proof. intros (T & _). unfold elem_at. now rewrite T. Qed.

Section Drop.
Variable n : nat.

Lemma Dropped_Cons a b : Dropped a b -> Cons n a -> Cons n b.
Proof.
  intros (T & _ & H) [R C]. split; [now rewrite T|]. intros p lf z s E. unfold inf in *. rewrite T in E. destruct (C p lf z s E) as (i & e & -> & E1 & P1 & K).
  destruct (H i e E1) as (e' & E2 & P2 & _ & Q). exists i, e'. split; [reflexivity|]. split; [exact E2|]. split; [congruence|]. intros N. apply K. destruct Q as [Q|[Q Q']]; congruence.
Qed.
Lemma Dropped_record a b p i : Dropped a b -> Cons n a -> elem_at a p = Some i -> record_of b i = record_of a i.
Proof.
  intros (_ & _ & H) C E. destruct (elem_at_cons n a p i C E) as (e & _ & _ & E1 & P1 & _). destruct (H i e E1) as (e' & E2 & _ & _ & [Q|[_ Q]]); [|congruence].
  now rewrite (record_of_nth _ _ _ E1), (record_of_nth _ _ _ E2).
Qed.
Lemma Dropped_exists a b p : Dropped a b -> Cons n a -> exists_at b p = exists_at a p.
Proof.
  intros D C. unfold exists_at. rewrite (Dropped_elem_at a b p D). destruct (elem_at a p) as [i|] eqn:E; [|reflexivity]. now rewrite (Dropped_record a b p i D C E).
Qed.
Lemma Dropped_orphans a b : Dropped a b -> no_orphans a -> no_orphans b.
Proof.
  intros (T & L & H) N i e p E P R. rewrite T. destruct (nth_error (s_elems a) i) as [e0|] eqn:E0.
  - destruct (H i e0 E0) as (e' & E' & P' & _ & Q). assert (e' = e) by congruence. subst e'. apply (N i e0 p E0); [congruence|]. destruct Q as [Q|[Q _]]; congruence.
  - apply nth_error_None in E0. rewrite <- L in E0. apply nth_error_None in E0. congruence.
Qed.
Lemma Dropped_Keeps a b : Dropped a b -> Keeps a b.
Proof. intros (_ & L & H). apply Keeps_one; [exact L|]. intros i e E. destruct (H i e E) as (e' & E' & P & D & _). eauto. Qed.
Lemma Dropped_alike a b : Dropped a b -> Cons n a -> alike a b /\ alike b a.
Proof.
  intros D C. pose proof (Dropped_Cons a b D C) as C'. assert (T : forget_elem (s_tree b) = forget_elem (s_tree a)) by (now rewrite (proj1 D)).
  split; apply (alike_forget n); auto; intros p; [|symmetry]; now apply Dropped_exists.
Qed.

(** There is an element behind the face. *)
Definition blocked (a : state) (i d : nat) (s : bool) : Prop :=
  exists p q, tree_of a i = Some p /\ find_neighbor n (s_tree a) p (direct n d (sgn s)) = Ok (Some q) /\ exists_at a q = true.
Lemma Dropped_blocked a b i d s : Dropped a b -> Cons n a -> (blocked a i d s <-> blocked b i d s).
Proof.
  intros D C. unfold blocked. split; intros (p & q & H1 & H2 & H3); exists p, q.
  - split; [apply (tree_of_at n b _ p (Dropped_Cons a b D C)); rewrite (Dropped_elem_at a b p D); now apply (tree_of_at n a _ p C)|].
    rewrite (proj1 D). split; [exact H2|]. now rewrite (Dropped_exists a b q D C).
  - split; [apply (tree_of_at n a _ p C); rewrite <- (Dropped_elem_at a b p D); now apply (tree_of_at n b _ p (Dropped_Cons a b D C))|].
    rewrite <- (proj1 D). split; [exact H2|]. now rewrite <- (Dropped_exists a b q D C).
Qed.
(** what one entry does *)
Definition droppable (a : state) (l : link) : Prop := match l with
  | Ext i o d s => record_of a i = 2%Z \/ blocked a i d s
  | _ => False end.

Lemma drop_one a l : Cons n a -> (forall i o d s, l = Ext i o d s -> is_extruded a o) ->
  exists b, drop_extruded n l a = Ok b /\ Dropped a b /\ (droppable a l -> forall i o d s, l = Ext i o d s -> record_of b o = 2%Z).
Proof.
  intros C X. destruct l as [b0 i j d s|b0 c fs d s|e d s|i o d s|fs]; try (exists a; split; [reflexivity|]; split; [apply Dropped_refl|]; intros _ i' o' d' s' K; discriminate K).
  specialize (X i o d s eq_refl). cbn [drop_extruded droppable].
  assert (Yes : exists b, Ok (set_record o 2 a) = Ok b /\ Dropped a b /\
    ((record_of a i = 2%Z \/ exists p q, tree_of a i = Some p /\ find_neighbor n (s_tree a) p (direct n d (sgn s)) = Ok (Some q) /\ exists_at a q = true) ->
       forall i0 o0 d0 s0, Ext i o d s = Ext i0 o0 d0 s0 -> record_of b o0 = 2%Z)).
  { eexists. split; [reflexivity|]. split; [now apply Dropped_set|]. intros _ i0 o0 d0 s0 K. injection K as <- <- <- <-. destruct X as (e & E & _).
    unfold record_of. rewrite nth_set, Nat.eqb_refl, E. reflexivity. }
  destruct (Z.eqb_spec (record_of a i) 2) as [R|R]; [exact Yes|]. destruct (tree_of a i) as [p|] eqn:Ep.
  - pose proof Ep as Ep'. apply (tree_of_at n a i p C) in Ep'. unfold elem_at in Ep'. destruct (subtree (s_tree a) p) as [x|] eqn:Ex; [|discriminate].
    assert (Ef : exists o', find_neighbor n (s_tree a) p (direct n d (sgn s)) = Ok o').
    { eexists. apply (find_neighbor_search n (s_tree a) p x _ Ex). unfold direct. rewrite map_length, seq_length. lia. }
    destruct Ef as (o' & Ef). rewrite Ef in *. cbn [bind]. destruct o' as [q|]; [destruct (exists_at a q) eqn:Eq|].
    + destruct Yes as (b & E1 & E2 & _). exists b. split; [exact E1|]. split; [exact E2|]. intros _ i0 o0 d0 s0 K. injection K as <- <- <- <-. injection E1 as <-. destruct X as (e & E & _).
      unfold record_of. rewrite nth_set, Nat.eqb_refl, E. reflexivity.
    + exists a. split; [reflexivity|]. split; [apply Dropped_refl|]. intros [K|(p' & q' & K1 & K2 & K3)]; [contradiction|]. assert (p' = p) by congruence. subst p'. congruence.
    + exists a. split; [reflexivity|]. split; [apply Dropped_refl|]. intros [K|(p' & q' & K1 & K2 & K3)]; [contradiction|]. assert (p' = p) by congruence. subst p'. congruence.
  - exists a. split; [reflexivity|]. split; [apply Dropped_refl|]. intros [K|(p' & q' & K1 & _)]; [contradiction|]. congruence.
Qed.

Lemma droppable_mono a b l : Dropped a b -> Cons n a -> droppable a l -> droppable b l.
Proof.
  intros D C. destruct l; cbn [droppable]; auto. intros [H|H]; [left; eapply Dropped_two; eauto|right]. now apply (Dropped_blocked a b _ _ _ D C).
Qed.

Lemma drop_all ls : forall a, Cons n a -> (forall i o d s, In (Ext i o d s) ls -> is_extruded a o) ->
  exists b, ofold (drop_extruded n) ls a = Ok b /\ Dropped a b /\ (forall i o d s, In (Ext i o d s) ls -> droppable a (Ext i o d s) -> record_of b o = 2%Z).
Proof.
  induction ls as [|l ls IH]; intros a C X; cbn [ofold].
  - exists a. split; [reflexivity|]. split; [apply Dropped_refl|]. intros i o d s [].
  - destruct (drop_one a l C) as (b & E1 & D1 & K1); [intros i o d s ->; apply (X i o d s); now left|]. rewrite E1. cbn [bind].
    destruct (IH b (Dropped_Cons a b D1 C)) as (c & E2 & D2 & K2). { intros i o d s H. apply (Dropped_extruded a b o D1). apply (X i o d s). now right. }
    exists c. split; [exact E2|]. split; [eapply Dropped_trans; eauto|]. intros i o d s [->|H] Dr.
    + apply (Dropped_two b c o D2). eapply K1; eauto.
    + apply (K2 i o d s H). eapply droppable_mono; eauto.
Qed.
End Drop.

Lemma extruded_Keeps a b o : Keeps a b -> is_extruded a o -> is_extruded b o.
Proof. intros [H _] (e & E & P). destruct (H o e E) as (e' & E' & P' & _). exists e'. split; [exact E'|congruence]. Qed.
Lemma dropped_ready n a b : Dropped a b -> Cons n a -> (forall p i, elem_at a p = Some i -> record_of a i = 0%Z \/ record_of a i = 2%Z) ->
  forall p i, elem_at b p = Some i -> record_of b i = 0%Z \/ record_of b i = 2%Z.
Proof. intros D C H p i E. rewrite (Dropped_elem_at a b p D) in E. rewrite (Dropped_record n a b p i D C E). eauto. Qed.

(** ** the same with any amount of fuel *)
Lemma delete_bad_shift n away order m : forall fuel st st', delete_bad fuel n away order st = Ok st' -> delete_bad (m + fuel) n away (fun k => order (k - m)) st = Ok st'.
Proof.
  induction fuel as [|fuel IH]; intros st st' E; [discriminate|]. rewrite Nat.add_succ_r. cbn [delete_bad] in *. replace (m + fuel - m) with fuel by lia.
  destruct (ofold (scan_elem n away) (order fuel) (st, false)) as [[s ch]| | |]; cbn [bind] in *; try discriminate. destruct ch; auto.
Qed.
Lemma spread_shift n order m : forall fuel st st', spread_loop fuel n order st = Ok st' -> spread_loop (m + fuel) n (fun k => order (k - m)) st = Ok st'.
Proof.
  induction fuel as [|fuel IH]; intros st st' E; [discriminate|]. rewrite Nat.add_succ_r. cbn [spread_loop] in *. replace (m + fuel - m) with fuel by lia.
  destruct (ofold (spread_one n) (order fuel) (st, false)) as [[s ch]| | |]; cbn [bind] in *; try discriminate. destruct ch; auto.
Qed.
Lemma deform_shift n o1 o2 order m fuel st st' : deform fuel n o1 o2 order st = Ok st' -> deform (m + fuel) n o1 o2 (fun k => order (k - m)) st = Ok st'.
Proof.
  unfold deform. cbv zeta. intros E. apply bind_ok in E as (s1 & E1 & E). apply bind_ok in E as (s2 & E2 & E). rewrite E1. cbn [bind]. rewrite (spread_shift n order m fuel s1 s2 E2). exact E.
Qed.
Lemma trim_any n away order st fuel st' : consistent n st -> (forall k, some_order st (order k)) -> delete_bad fuel n away order st = Ok st' ->
  consistent n st' /\ only_marks st st' /\ extrudable n st' /\ (no_orphans st -> no_orphans st') /\ (balanced n st -> balanced n st') /\ (ready st -> ready st').
Proof.
  intros C Ho E. apply consistent_Cons in C as C'. pose proof (delete_bad_shift n away order (S (live st)) fuel st st' E) as E'.
  destruct (delete_bad_ends n away (fun k => order (k - S (live st))) (S (live st) + fuel) st C' ltac:(lia)) as (s & E2 & C2 & M & k & Q). assert (s = st') by congruence. subst s.
  split; [now apply consistent_Cons|]. split; [eapply marks_only; eauto|]. split.
  { apply (quiet_extrudable n away st' C2). apply (quiet_holds n away st' (order (k - S (live st))) C2); [|exact Q]. rewrite (marks_length _ _ M). apply Ho. }
  split; [intros W; apply (Whole_no_orphans n st' C2), (marks_Whole n st st' M C'), (Whole_no_orphans n st C'), W|].
  split; [eapply marks_balanced; eauto|]. intros R. apply (ready_Clean n st' C2). apply (ready_Clean n st C') in R as [R1 R2]. eapply marks_records; eauto.
Qed.
Lemma deform_any n ord1 ord2 order st fuel st' : consistent n st -> extrudable n st -> ready st ->
  some_order st ord1 -> some_order st ord2 -> (forall k, some_order st (order k)) -> deform fuel n ord1 ord2 order st = Ok st' ->
    consistent n st' /\ same_nodes (s_tree st) (s_tree st') /\ (no_orphans st -> no_orphans st') /\
    (forall p, (exists i, lives st' i p) <-> (exists i, lives st i p)) /\
    (forall p i, lives st' i p -> record_of st' i = 0%Z /\ (deformed st' i <-> deformable n st p)) /\
    (forall i e, nth_error (s_elems st) i = Some e -> (forall p x, subtree (s_tree st) p = Some x -> t_elem x <> Some (Z.of_nat i)) \/ e_record e = 2%Z ->
       nth_error (s_elems st') i = Some e) /\
    extrudable n st' /\ (balanced n st -> balanced n st').
Proof.
  intros C X R P1 P2 P3 E. pose proof (deform_shift n ord1 ord2 order (S (length (s_elems st))) fuel st st' E) as E'.
  destruct (deform_exact n ord1 ord2 (fun k => order (k - S (length (s_elems st)))) st C X R P1 P2 (fun k => P3 _) (S (length (s_elems st)) + fuel) ltac:(lia)) as (s & E2 & K).
  assert (s = st') by congruence. now subst s.
Qed.

(** exposed elements are deformed *)
Lemma exposed_move n st st' : alike st st' -> alike st' st -> (forall i p x, on_leaf st' i p x -> exists j, lives st j p /\ (deformed st j -> deformed st' i)) ->
  exposed_deformed n st -> exposed_deformed n st'.
Proof.
  intros A A' M E i p x d s O Hd Nc. destruct (proj1 (A' p x) (proj1 O)) as (x0 & L0 & K0). destruct (M i p x O) as (j & Lj & Dj). apply Dj. apply (E j p x0 d s); [split; auto|exact Hd|].
  intros Cv. apply Nc. eapply (alike_covered n st st'); eauto. now apply like_sym.
Qed.
Lemma same_nodes_alike st st' : same_nodes (s_tree st) (s_tree st') -> (forall p, (exists i, lives st' i p) <-> (exists i, lives st i p)) -> alike st st' /\ alike st' st.
Proof.
  intros [N1 N2] V.
  assert (F : forall p x, leaf_at (s_tree st) p x -> exists x', leaf_at (s_tree st') p x' /\ like x x').
  { intros p x [H L]. destruct (N1 p x H) as (x' & H' & A & B & _ & D). exists x'. split; [split; [exact H'|tauto]|split; auto]. }
  assert (G : forall p x, leaf_at (s_tree st') p x -> exists x', leaf_at (s_tree st) p x' /\ like x x').
  { intros p x [H L]. destruct (N2 p (ex_intro _ x H)) as (x' & H'). destruct (N1 p x' H') as (x1 & H1 & A & B & _ & D). assert (x1 = x) by congruence. subst x1.
    exists x'. split; [split; [exact H'|tauto]|split; auto]. }
  split; intros p x; (split; [auto|]); intros [L O].
  - destruct (F p x L) as (x' & L' & K). exists x'. split; [split; [exact L'|now apply V]|exact K].
  - destruct (G p x L) as (x' & L' & K). exists x'. split; [split; [exact L'|now apply V]|exact K].
Qed.
Lemma exposed_layer n st st' : same_nodes (s_tree st) (s_tree st') -> (forall p, (exists i, lives st' i p) <-> (exists i, lives st i p)) ->
  (forall p i, lives st' i p -> record_of st' i = 0%Z /\ (deformed st' i <-> deformable n st p)) -> exposed_deformed n st'.
Proof.
  intros N V D i p x d s O Hd Nc. destruct (same_nodes_alike st st' N V) as [A A']. apply (D p i (proj2 O)). destruct (proj2 (A' p x)) as (x0 & O0 & K0); [split; [apply O|exists i; apply O]|].
  apply (df_exposed n st p x0 d (sgn s)); auto; [apply sgn_unit|]. intros Cv. apply Nc. eapply (alike_covered n st st'); eauto. now apply like_sym.
Qed.
Lemma exposed_dropped n st st' : Dropped st st' -> Cons n st -> exposed_deformed n st -> exposed_deformed n st'.
Proof.
  intros D C. pose proof (Dropped_alike n st st' D C) as [A A']. apply exposed_move; auto. intros i p x O. exists i. pose proof (Dropped_Cons n st st' D C) as C'.
  destruct O as [_ O]. apply (lives_at n st' i p C') in O as [O1 O2]. rewrite (Dropped_elem_at st st' p D) in O1. rewrite (Dropped_record n st st' p i D C O1) in O2. split; [now apply (lives_at n st i p C)|].
  intros (e & He & Xe). destruct D as (_ & _ & D). destruct (D i e He) as (e' & He' & _ & Q & _). exists e'. split; [exact He'|congruence].
Qed.
Lemma exposed_purged n st : Cons n st -> (forall p i, elem_at st p = Some i -> record_of st i = 0%Z \/ record_of st i = 2%Z) -> exposed_deformed n st -> exposed_deformed n (purge st).
Proof.
  intros C Rd. pose proof (pst_alike n st C Rd) as [A A']. apply exposed_move; auto. intros i p x O. apply (on_leaf_at n (purge st) (pst_Cons n st C) (pst_record n st C)) in O as [_ O].
  rewrite pst_elem in O. destruct (elem_at st p) as [j|] eqn:Ej; [|discriminate]. destruct (mask st j) eqn:Mj; [|discriminate]. injection O as <-. exists j. apply mask_living in Mj as (e & He & Re). split.
  - apply (lives_at n st j p C). split; [exact Ej|]. rewrite (record_of_nth _ _ _ He). congruence.
  - intros (e' & He' & De). exists e'. split; [|exact De]. apply new_number_nth; congruence.
Qed.

Section Finish.
Variables (n : nat) (js0 : joined).
Let st0 := j_st js0.
Hypothesis Hn : 2 <= n.
Hypothesis S0 : settled n st0.
Hypothesis Wj : well_joined n js0.
Hypothesis Ls : listed js0.
Hypothesis Nd : no_dangling js0.

(** What is there after [finish_update]. *)
Definition rejoined (st : state) (js' : joined) : Prop :=
  well_joined n js' /\ all_joined n js' /\ listed js' /\ settled n (j_st js') /\ linked (j_st js') /\ balanced n (j_st js') /\ extrudable n (j_st js') /\
  (forall i e, nth_error (s_elems (j_st js')) i = Some e -> e_record e = 0%Z) /\ same_nodes (s_tree st) (s_tree (j_st js')).

Lemma same_nodes_trans t u v : same_nodes t u -> same_nodes u v -> same_nodes t v.
Proof.
  intros [A1 A2] [B1 B2]. split; [|auto]. intros p x H. destruct (A1 p x H) as (y & Hy & E1 & E2 & E3 & E4). destruct (B1 p y Hy) as (z & Hz & F1 & F2 & F3 & F4).
  exists z. split; [exact Hz|]. split; [congruence|]. split; [congruence|]. split; [congruence|]. tauto.
Qed.
Lemma repair_same st t : same_nodes t (repair st t).
Proof. apply forget_same. apply repair_forget. Qed.

(** purge and connect *)
Lemma purge_connect st2 : Cons n st2 -> Keeps st0 st2 -> no_orphans st2 -> (forall p i, elem_at st2 p = Some i -> record_of st2 i = 0%Z \/ record_of st2 i = 2%Z) ->
  balanced n st2 -> extrudable n st2 ->
  (forall i o d s, In (Ext i o d s) (j_extr js0) -> blocked n st2 i d s -> record_of st2 o = 2%Z) ->
  exists js', (let! js := purge_all n (mk_joined st2 (j_links js0) (j_extr js0) (j_face js0)) in let! js := connect_new n false js in connect_new n true js) = Ok js' /\
    j_st js' = purge st2 /\ j_extr js' = map (renumber st2) (filter (fun l => negb (extr_erased st2 l)) (j_extr js0)) /\
    (forall l, In l (j_links js0) -> gone_link n st2 l = false -> In (renumber st2 l) (j_links js')) /\ rejoined st2 js'.
Proof.
  intros C Kp No Rd Bal Ex Dr. pose proof (pst_alike n st2 C Rd) as [A1 A2].
  assert (Bal' : balanced n (purge st2)) by (eapply alike_balanced; eauto). assert (Ex' : extrudable n (purge st2)) by (eapply (alike_extrudable n st2 (purge st2)); eauto).
  assert (Wh : forall p x q y d s, occupied (purge st2) p x -> occupied (purge st2) q y -> d < n -> share_face n d (sgn s) x y -> covered_face n (purge st2) x d (sgn s)).
  { intros p x q y d s Ox Oy Hd S. eapply (ex_face n _ Ex'); eauto. apply sgn_unit. }
  pose proof (pst_Cons n st2 C) as Cp. pose proof (pst_record n st2 C) as Rp.
  destruct (purge_ok n st0 st2 S0 C Kp No Rd Bal' Wh (mk_joined st2 (j_links js0) (j_extr js0) (j_face js0)) js0 eq_refl eq_refl eq_refl eq_refl Wj) as (js1 & E1 & Es1 & W1 & L1 & X1).
  { cbn [j_links]. intros i o d s p x H Li Lo O Cov. destruct (wj_right n js0 Wj _ H) as (Hd & _ & [(p0 & x0 & O0 & Nc)|Ei]).
    2:{ apply (on_leaf_extruded n (purge st2) Cp Rp _ _ _ O). now apply (moves_extruded st0 st2 Kp). }
    destruct (moves n st0 st2 S0 C Kp No i p0 x0 O0 Li) as (x1 & O1 & Kx). destruct (on_leaf_inj n (purge st2) Cp Rp _ _ _ _ _ O O1) as [<- <-].
    destruct (forget_like (s_tree (purge st2)) (s_tree st2) p x ltac:(symmetry; apply repair_forget) (proj1 O)) as (x2 & Lx2 & Kx2).
    assert (Ep : elem_at st2 p = Some i).
    { apply (on_leaf_at n (purge st2) Cp Rp) in O as [_ O]. rewrite pst_elem in O. destruct (elem_at st2 p) as [j|] eqn:Ej; [|discriminate]. destruct (mask st2 j) eqn:Mj; [|discriminate].
      injection O as O. f_equal. apply (new_number_inj st2); auto. now apply mask_living. }
    destruct (nb_shape n (s_tree st2) p x2 d s ltac:(apply C) Lx2 Hd) as (l & F1 & F2 & _ & HI & _). destruct l as [|q l].
    - apply (no_neighbor n (s_tree st2) p x2 d s ltac:(apply C) Lx2 Hd) in F1. apply (like_boundary _ _ d s (like_sym _ _ Kx2)), (like_boundary _ _ d s (like_sym _ _ Kx)) in F1.
      apply (no_neighbor n (s_tree st0) p x0 d s ltac:(apply S0) (proj1 O0) Hd) in F1. destruct (nb_shape n (s_tree st0) p x0 d s ltac:(apply S0) (proj1 O0) Hd) as (l0 & G1 & _ & _ & HI0 & _).
      assert (l0 = []) by congruence. subst l0. apply Nc. intros q y Ly S. exfalso. apply (HI0 q). eauto.
    - destruct (proj1 (HI q) (or_introl eq_refl)) as (y & Ly & S). destruct (forget_like (s_tree st2) (s_tree (purge st2)) q y ltac:(apply repair_forget) Ly) as (y1 & Ly1 & Ky1).
      pose proof (Cov q y1 Ly1 (like_share n d (sgn s) x2 y x y1 (like_sym _ _ Kx2) Ky1 S)) as Oq. apply (exists_occupied n (purge st2) q y1 Cp Ly1) in Oq.
      rewrite (pst_exists n st2 C Rd) in Oq. assert (record_of st2 o = 2%Z); [|destruct Lo as (eo & Eo & Ro); rewrite (record_of_nth _ _ _ Eo) in *; congruence].
      apply (Dr i o d s); [now apply Ls|]. exists p, q. split; [now apply (tree_of_at n st2 i p C)|]. split; [exact F2|exact Oq]. }
  rewrite E1. cbn [bind]. destruct (connect_both n (purge st2) Cp Rp Wh Bal' Hn js1 W1 Es1) as (js' & E2 & G & AJ). exists js'. split; [exact E2|].
  destruct G as (W & Es & Ee & nw & El & Fn). rewrite Es1 in Es. split; [exact Es|]. split; [now rewrite Ee, X1|]. cbn [j_links] in L1. split.
  { intros l H Hg. rewrite El, L1. apply in_or_app. left. apply in_map, filter_In. split; [exact H|]. now rewrite Hg. }
  split; [exact W|]. split; [exact AJ|]. split; [|rewrite Es; split; [apply purge_settled, consistent_Cons, C|split; [now apply purge_linked|split; [exact Bal'|split; [exact Ex'|split; [apply pst_records|apply repair_same]]]]]].
  intros i o d s H. rewrite El in H. apply in_app_or in H as [H|H]; [|rewrite Forall_forall in Fn; now apply Fn in H]. rewrite L1 in H. apply in_map_iff in H as (l & El' & H).
  destruct l as [b0 i1 j1 d1 s1|b0 c1 fs1 d1 s1|e1 d1 s1|i1 o1 d1 s1|fs1]; cbn [renumber] in El'; try discriminate. injection El' as <- <- <- <-.
  apply filter_In in H as [H Hg]. apply negb_true_iff in Hg. rewrite Ee, X1. apply in_map_iff. exists (Ext i1 o1 d1 s1). split; [reflexivity|]. apply filter_In. split; [now apply Ls|].
  apply negb_true_iff. unfold extr_erased. cbn [uses existsb fst]. assert (K : forall k, living st2 k -> (record_of st2 k =? 2)%Z = false). { intros k (e & E & R). now rewrite (record_of_nth _ _ _ E), R. }
  rewrite (K i1), (K o1); [reflexivity| |]; [apply (kept_living n st2 C Rd (Ext i1 o1 d1 s1) (o1, d1, negb s1) Hg); right; now left|apply (kept_living n st2 C Rd (Ext i1 o1 d1 s1) (i1, d1, s1) Hg); now left].
Qed.

Variables (away : path -> list bool -> bool) (order : nat -> state -> list nat).
Hypothesis Ho : forall k st, some_order st (order k st).

Lemma finish_good st1 fuel js' : consistent n st1 -> ready st1 -> no_orphans st1 -> balanced n st1 -> Keeps st0 st1 ->
  finish_update fuel n away order (mk_joined st1 (j_links js0) (j_extr js0) (j_face js0)) = Ok js' ->
  exists st2, rejoined st1 js' /\ Cons n st2 /\ Keeps st1 st2 /\ no_orphans st2 /\ j_st js' = purge st2 /\
    (forall p i, elem_at st2 p = Some i -> record_of st2 i = 0%Z \/ record_of st2 i = 2%Z) /\
    j_extr js' = map (renumber st2) (filter (fun l => negb (extr_erased st2 l)) (j_extr js0)) /\
    (forall l, In l (j_links js0) -> gone_link n st2 l = false -> In (renumber st2 l) (j_links js')) /\
    (forall i o d s, In (Ext i o d s) (j_extr js0) -> record_of st1 i = 2%Z -> record_of st2 o = 2%Z) /\
    (forall o, is_extruded st1 o -> record_of st2 o = record_of st1 o \/ record_of st2 o = 2%Z) /\
    (filled st1 -> filled (j_st js')) /\ exposed_deformed n (j_st js') /\
    (forall i o d s e, In (Ext i o d s) (j_extr js0) -> nth_error (s_elems st2) i = Some e -> e_path e <> None -> e_record e = 2%Z -> record_of st2 o = 2%Z).
Proof.
  intros C1 R1 N1 B1 K1 E. unfold finish_update in E. cbn [j_st j_links j_extr j_face] in E.
  apply bind_ok in E as (st2 & E2 & E). destruct (trim_any n away (fun k => order k st1) st1 fuel st2 C1 (fun k => Ho k st1) E2) as (C2 & M2 & X2 & N2 & B2 & R2).
  apply bind_ok in E as (st3 & E3 & E). assert (L2 : length (s_elems st2) = length (s_elems st1)) by apply M2.
  destruct (deform_any n (order 0 st2) (order 1 st2) (fun k => order k st2) st2 fuel st3 C2 X2 (R2 R1) (Ho _ _) (Ho _ _) (fun k => Ho k st2) E3)
    as (C3 & T3 & N3 & V3 & D3 & F3 & X3 & B3). apply consistent_Cons in C3 as C3'.
  assert (K3 : Keeps st1 st3). { apply (Keeps_trans _ st2); [now apply only_marks_Keeps|eapply Keeps_deform; eauto]. }
  destruct (drop_all n (j_extr js0) st3 C3') as (st4 & E4 & D4 & Q4).
  { intros i o d s H. apply Nd in H as [H _]. destruct (wj_right n js0 Wj _ H) as (_ & Xo & _). apply (extruded_Keeps st1); [exact K3|]. now apply (extruded_Keeps st0). }
  rewrite E4 in E. cbn [bind] in E. pose proof (Dropped_alike n st3 st4 D4 C3') as [A1 A2].
  assert (Rd3 : forall p i, elem_at st3 p = Some i -> record_of st3 i = 0%Z \/ record_of st3 i = 2%Z).
  { intros p i H. destruct (Z.eq_dec (record_of st3 i) 2) as [Q|Q]; [now right|left]. apply (D3 p i). now apply (lives_at n st3 i p C3'). }
  assert (K4 : Keeps st1 st4). { apply (Keeps_trans _ st3); [exact K3|now apply Dropped_Keeps]. }
  assert (C4 : Cons n st4) by (eapply Dropped_Cons; eauto). pose proof (dropped_ready n st3 st4 D4 C3' Rd3) as Rd4.
  assert (N4 : no_orphans st4) by (eapply Dropped_orphans; eauto).
  destruct (purge_connect st4) as (js2 & E5 & P1 & P2 & P3 & P4); auto.
  - eapply (Keeps_trans _ st1); eauto.
  - eapply alike_balanced; eauto.
  - eapply (alike_extrudable n st3 st4); eauto.
  - intros i o d s H Bl. apply (Q4 i o d s H). right. now apply (Dropped_blocked n st3 st4 i d s D4 C3').
  - assert (js2 = js') by congruence. subst js2. exists st4. split.
    { destruct P4 as (Q1 & Q2 & Q3 & Q5 & Q6 & Q7 & Q8 & Q9 & Q10). repeat (split; [assumption|]). eapply same_nodes_trans; [|exact Q10]. rewrite (proj1 D4).
      eapply same_nodes_trans; [|exact T3]. rewrite (proj1 M2). split; [|auto]. intros p x Hx. exists x. repeat split; auto. }
    split; [exact C4|]. split; [exact K4|]. split; [exact N4|]. split; [exact P1|]. split; [exact Rd4|]. split; [exact P2|]. split; [exact P3|]. split; [|split; [|split; [|split; [rewrite P1; apply exposed_purged; auto; eapply exposed_dropped; eauto; eapply exposed_layer; eauto|]]]].
    + intros i o d s H R. apply (Q4 i o d s H). left.
      assert (R' : record_of st2 i = 2%Z). { unfold record_of in *. destruct (nth_error (s_elems st1) i) as [e|] eqn:E1.
        - destruct M2 as (_ & _ & M2). destruct (M2 i e E1) as (e' & -> & _ & _ & _ & [Q|[Q _]]); congruence.
        - apply nth_error_None in E1. rewrite <- L2 in E1. apply nth_error_None in E1. now rewrite E1. }
      pose proof (wj_right n js0 Wj _ (proj1 (Nd _ H))) as (_ & _ & Q). destruct (nth_error (s_elems st2) i) as [e|] eqn:E1.
      * rewrite (record_of_nth st3 i e); [rewrite <- (record_of_nth st2 i e E1); exact R'|]. apply (F3 i e E1). right. rewrite <- (record_of_nth st2 i e E1). exact R'.
      * exfalso. apply nth_error_None in E1. assert (i < length (s_elems st0)).
        { destruct Q as [(p & x & O & _)|(e0 & E0 & _)]; [eapply on_leaf_lt; eauto|apply nth_error_Some; unfold st0; rewrite E0; discriminate]. }
        destruct (nth_error (s_elems st0) i) as [e0|] eqn:E0; [|apply nth_error_None in E0; lia]. destruct (proj1 K1 i e0 E0) as (e1 & G1 & _).
        assert (i < length (s_elems st1)) by (apply nth_error_Some; congruence). lia.
    + intros o (e & He & Pe). destruct M2 as (T2 & _ & M2). destruct (M2 o e He) as (e2 & G2 & P2' & _ & _ & Q2).
      assert (F : nth_error (s_elems st3) o = Some e2).
      { apply (F3 o e2 G2). left. intros p x Hx Ht. apply consistent_Cons in C2 as C2'. assert (G : elem_at st2 p = Some o) by (unfold elem_at; now rewrite Hx, Ht, Nat2Z.id).
        destruct (elem_at_cons n st2 p o C2' G) as (e' & _ & _ & J1 & J2 & _). congruence. }
      destruct D4 as (_ & _ & D4). destruct (D4 o e2 F) as (e4 & G4 & _ & _ & Q). rewrite (record_of_nth _ _ _ G4), (record_of_nth _ _ _ He). destruct Q as [Q|[Q _]]; [|auto].
      rewrite Q. destruct Q2 as [Q2|[Q2 _]]; auto.
    + intros F p x Lx. rewrite P1 in *. assert (st2 = st1) as Es.
      { destruct fuel as [|fuel]; [discriminate E2|]. pose proof (trim_filled n away (fun k => order k st1) st1 (S fuel) C1 F ltac:(lia)). congruence. }
      destruct (forget_like (s_tree (purge st4)) (s_tree st4) p x ltac:(symmetry; apply repair_forget) Lx) as (x4 & L4 & _). rewrite (proj1 D4) in L4.
      assert (exists x2, leaf_at (s_tree st2) p x2) as (x2 & Lx2).
      { destruct (proj2 T3 p (ex_intro _ x4 (proj1 L4))) as (x2 & H2). destruct (proj1 T3 p x2 H2) as (x3 & H3 & _ & _ & _ & Q). exists x2. split; [exact H2|]. apply Q. destruct L4 as [L4 L4']. congruence. }
      rewrite Es in Lx2. destruct (F p x2 Lx2) as (i & Li). rewrite <- Es in Li. destruct (proj2 (V3 p) (ex_intro _ i Li)) as (i3 & Li3).
      apply (lives_at n st3 i3 p C3') in Li3 as [Y1 Y2].
      assert (exists_at (purge st4) p = true) as Ex. { rewrite (pst_exists n st4 C4 Rd4), (Dropped_exists n st3 st4 p D4 C3'). apply exists_at_spec. eauto. }
      apply exists_at_spec in Ex as (j & Y3 & Y4). exists j. apply (lives_at n (purge st4) j p (pst_Cons n st4 C4)). auto.
    + intros i o d s e H He Pe Re. apply (Q4 i o d s H). left. destruct D4 as (_ & Len & D4). destruct (nth_error (s_elems st3) i) as [e3|] eqn:E3'.
      * destruct (D4 i e3 E3') as (e4 & G4 & P4' & _ & Q). rewrite He in G4. injection G4 as <-. rewrite (record_of_nth _ _ _ E3'). destruct Q as [Q|[_ Q]]; congruence.
      * apply nth_error_None in E3'. assert (i < length (s_elems st4)) by (apply nth_error_Some; congruence). lia.
Qed.

Lemma finish_ends st1 : consistent n st1 -> ready st1 -> no_orphans st1 -> balanced n st1 -> Keeps st0 st1 ->
  exists fuel0, forall fuel, fuel0 <= fuel -> exists js', finish_update fuel n away order (mk_joined st1 (j_links js0) (j_extr js0) (j_face js0)) = Ok js'.
Proof.
  intros C1 R1 N1 B1 K1. destruct (trim_extrudable n away (fun k => order k st1) st1 C1 (fun k => Ho k st1)) as (f0 & H1).
  exists (f0 + S (length (s_elems st1))). intros fuel L. destruct (H1 fuel ltac:(lia)) as (st2 & E2 & C2 & M2 & X2 & N2 & B2 & R2).
  unfold finish_update. cbn [j_st j_links j_extr j_face]. rewrite E2. cbn [bind].
  assert (L2 : length (s_elems st2) = length (s_elems st1)) by apply M2.
  destruct (deform_exact n (order 0 st2) (order 1 st2) (fun k => order k st2) st2 C2 X2 (R2 R1) (Ho _ _) (Ho _ _) (fun k => Ho k st2) fuel ltac:(lia))
    as (st3 & E3 & C3 & T3 & N3 & V3 & D3 & F3 & X3 & B3). rewrite E3. cbn [bind]. apply consistent_Cons in C3 as C3'.
  assert (K3 : Keeps st1 st3). { apply (Keeps_trans _ st2); [now apply only_marks_Keeps|eapply Keeps_deform; eauto]. }
  destruct (drop_all n (j_extr js0) st3 C3') as (st4 & E4 & D4 & Q4).
  { intros i o d s H. apply Nd in H as [H _]. destruct (wj_right n js0 Wj _ H) as (_ & Xo & _). apply (extruded_Keeps st1); [exact K3|]. now apply (extruded_Keeps st0). }
  rewrite E4. cbn [bind]. pose proof (Dropped_alike n st3 st4 D4 C3') as [A1 A2].
  assert (Rd3 : forall p i, elem_at st3 p = Some i -> record_of st3 i = 0%Z \/ record_of st3 i = 2%Z).
  { intros p i H. destruct (Z.eq_dec (record_of st3 i) 2) as [Q|Q]; [now right|left]. apply (D3 p i). now apply (lives_at n st3 i p C3'). }
  destruct (purge_connect st4) as (js' & E5 & _); [..|eauto].
  - eapply Dropped_Cons; eauto.
  - eapply (Keeps_trans _ st1); eauto. apply (Keeps_trans _ st3); [exact K3|now apply Dropped_Keeps].
  - eapply Dropped_orphans; eauto.
  - eapply dropped_ready; eauto.
  - eapply alike_balanced; eauto.
  - eapply (alike_extrudable n st3 st4); eauto.
  - intros i o d s H Bl. apply (Q4 i o d s H). right. now apply (Dropped_blocked n st3 st4 i d s D4 C3').
Qed.
End Finish.
