(** Theorems about the deletion of elements with bad exposed faces and about the deformed layer. *)
From Coq Require Import ZArith List Bool Arith Lia Permutation.
From Verif Require Import Outcome Loop Tree_Model Tree_Spec Tree_Proofs Update_Model Update_Spec Update_Proofs1 Update_Proofs3 Update_Proofs8 Update_Proofs9 Update_Proofs11 Update_Thm
  Trim_Model Trim_Spec Trim_Proofs1 Trim_Proofs2 Trim_Proofs3 Trim_Proofs4 Trim_Proofs5 Trim_Proofs6 Trim_Proofs7.
Import ListNotations.
Local Open Scope nat_scope.

Lemma ready_Clean n st : Cons n st -> (ready st <-> Clean st /\ forall i, record_of st i <> 3%Z).
Proof.
  intros C. split.
  - intros [R1 R2]. split.
    + intros p i H. destruct (elem_at_cons n st p i C H) as (e & lf & s & E & _ & I & _). destruct (inf_subtree _ _ _ I) as (x & Hx & Ev). injection Ev as _ Ev _.
      rewrite (record_of_nth _ _ _ E). eapply R1; eauto.
    + intros i. unfold record_of. destruct (nth_error (s_elems st) i) as [e|] eqn:E; [eauto|discriminate].
  - intros [K N]. split.
    + intros p x i e Hx He E. rewrite <- (record_of_nth _ _ _ E). apply (K p). unfold elem_at. now rewrite Hx, He, Nat2Z.id.
    + intros i e E. rewrite <- (record_of_nth _ _ _ E). apply N.
Qed.

(** ** C78 *)

(** [delete_bad_extrusions] ends in every mesh, whatever faces away from the surface and in whatever order the elements are
    visited; it only marks elements for deletion, and what is left can be extruded: every face is covered by elements
    completely or not at all, elements that touch across an edge or a corner have a common neighbour, and in three
    dimensions the edges of exposed faces are covered completely or not at all. *)
Theorem trim_extrudable : forall n away order st, consistent n st -> (forall k, some_order st (order k)) ->
  exists fuel0, forall fuel, fuel0 <= fuel -> exists st', delete_bad fuel n away order st = Ok st' /\
    consistent n st' /\ only_marks st st' /\ extrudable n st' /\
    (no_orphans st -> no_orphans st') /\ (balanced n st -> balanced n st') /\ (ready st -> ready st').
Proof.
  intros n away order st C0 Ho. apply consistent_Cons in C0 as C. exists (S (live st)). intros fuel L.
  destruct (delete_bad_ends n away order fuel st C L) as (st' & E & C' & M & k & Q). exists st'. split; [exact E|]. split; [now apply consistent_Cons|].
  split; [eapply marks_only; eauto|]. split.
  { apply (quiet_extrudable n away st' C'). apply (quiet_holds n away st' (order k) C'); [|exact Q]. rewrite (marks_length _ _ M). apply Ho. }
  split; [intros W; apply (Whole_no_orphans n st' C'), (marks_Whole n st st' M C), (Whole_no_orphans n st C), W|].
  split; [eapply marks_balanced; eauto|]. intros R. apply (ready_Clean n st' C'). apply (ready_Clean n st C) in R as [R1 R2]. eapply marks_records; eauto.
Qed.
Print Assumptions trim_extrudable.

(** A mesh without empty leaves is left as it is. *)
Theorem trim_filled : forall n away order st fuel, consistent n st -> filled st -> 0 < fuel -> delete_bad fuel n away order st = Ok st.
Proof. intros n away order st fuel C F H. apply consistent_Cons in C. now apply delete_bad_filled. Qed.
Print Assumptions trim_filled.

(** ** C79 *)

(** The full statement: the result does not depend on the order in which the parallel loop visits the elements
    (src/Accessible_mesh.cpp:894-896 runs it in parallel). *)
Definition trim_repeatable : Prop := forall n away order order' st fuel st1 st2, consistent n st ->
  (forall k, some_order st (order k)) -> (forall k, some_order st (order' k)) ->
  delete_bad fuel n away order st = Ok st1 -> delete_bad fuel n away order' st = Ok st2 -> st1 = st2.

(** What is true: once it has ended, another call changes nothing, in whatever order. *)
Theorem trim_repeatable_partial : forall n away order order' st fuel fuel' st', consistent n st -> (forall k, some_order st (order k)) ->
  delete_bad fuel n away order st = Ok st' -> 0 < fuel' -> delete_bad fuel' n away order' st' = Ok st'.
Proof.
  intros n away order order' st fuel fuel' st' C0 Ho E F. apply consistent_Cons in C0 as C.
  assert (K : exists s', delete_bad fuel n away order st = Ok s' /\ Cons n s' /\ quiet n away s').
  { clear F. assert (G : forall fuel st st', Cons n st -> (forall k, some_order st (order k)) -> delete_bad fuel n away order st = Ok st' ->
        Cons n st' /\ quiet n away st').
    { clear. induction fuel as [|fuel IH]; intros st st' C Ho E; [discriminate|]. cbn [delete_bad] in E.
      destruct (sweep_ok n away (order fuel) (st, false) C) as ([s1 ch] & E1 & C1 & St). rewrite E1 in E. cbn [bind] in E. cbn [fst] in C1. destruct ch.
      - apply (IH s1); auto. intros k. unfold some_order. destruct St as [M _]. cbn [fst] in M. rewrite (marks_length _ _ M). apply Ho.
      - injection E as <-. pose proof (Step_true _ _ St eq_refl) as Q. injection Q as ->. split; [exact C|]. eapply quiet_holds; [exact C|apply (Ho fuel)|exact E1]. }
    exists st'. split; [exact E|]. eapply G; eauto. }
  destruct K as (s' & E' & C' & Q). assert (s' = st') by congruence. subst s'. now apply delete_bad_quiet.
Qed.
Print Assumptions trim_repeatable_partial.

(** Sixty-four squares; those in columns and rows (2,3), (3,2), (3,4) are on the surface. The elements at (2,2), (3,3) and
    (2,4) touch only at corners. *)
Fixpoint cell (k x y : nat) : path :=
  match k with O => [] | S k' => (2 * (x / 2 ^ k') + y / 2 ^ k') :: cell k' (x mod 2 ^ k') (y mod 2 ^ k') end.
Definition three_cells (p : path) : bool :=
  existsb (fun q => if list_eq_dec Nat.eq_dec p q then true else false) [cell 3 2 3; cell 3 3 2; cell 3 3 4].
Definition cells_mesh : outcome state :=
  let! s := adapt 2 flat [[]] [] (start_mesh 2) in
  let! s := adapt 2 flat (map (fun k => [k]) (seq 0 4)) [] s in
  let! s := adapt 2 flat (map (fun k => [k / 4; k mod 4]) (seq 0 16)) [] s in
  set_surface 500 2 three_cells [0; 0; 0] s.
Definition no_away (p : path) (l : list bool) : bool := false.
Definition first (i : nat) (st : state) : list nat := i :: filter (fun j => negb (j =? i)) (seq 0 (length (s_elems st))).
Definition gone (st : state) : list path :=
  flat_map (fun p => if exists_at st p then [] else [p]) [cell 3 2 2; cell 3 3 3; cell 3 2 4].

Lemma first_order i st : i < length (s_elems st) -> some_order st (first i st).
Proof.
  intros H. apply NoDup_Permutation.
  - constructor; [rewrite filter_In, Nat.eqb_refl; intros [_ K]; discriminate|apply NoDup_filter, seq_NoDup].
  - apply seq_NoDup.
  - intros j. cbn [first In]. rewrite filter_In, in_seq, negb_true_iff, Nat.eqb_neq. split; [lia|]. destruct (Nat.eq_dec i j); [auto|lia].
Qed.
Lemma cells_consistent st : cells_mesh = Ok st -> consistent 2 st.
Proof.
  unfold cells_mesh. intros E. apply bind_inv in E as (s1 & E1 & E). apply bind_inv in E as (s2 & E2 & E). apply bind_inv in E as (s3 & E3 & E).
  pose proof (adapt_complete 2 _ _ _ _ (start_complete 2) E1) as H1. pose proof (adapt_complete 2 _ _ _ _ H1 E2) as H2.
  pose proof (adapt_complete 2 _ _ _ _ H2 E3) as (H3 & _). destruct (set_surface_same 2 _ _ _ _ _ E (proj1 H3)) as [K R].
  apply settled_consistent, (settled_same 2 s3 st K R H3).
Qed.

(** In the order of the numbers the element at (2,4) stays; if the one at (3,3) is visited first, all three are deleted. *)
Example cells_order :
  match cells_mesh with
  | Ok s => 15 < length (s_elems s) /\ gone s = [] /\
            match delete_bad 100 2 no_away (fun _ => seq 0 (length (s_elems s))) s, delete_bad 100 2 no_away (fun _ => first 15 s) s with
            | Ok a, Ok b => gone a = [cell 3 2 2; cell 3 3 3] /\ gone b = [cell 3 2 2; cell 3 3 3; cell 3 2 4]
            | _, _ => False
            end
  | _ => False
  end.
Proof. vm_compute. repeat split. apply Nat.ltb_lt. reflexivity. Qed.

Theorem trim_repeatable_refuted : ~ trim_repeatable.
Proof.
  intros H. pose proof cells_order as O. destruct cells_mesh as [s| | |] eqn:Es; try contradiction. destruct O as (L & _ & O).
  destruct (delete_bad 100 2 no_away (fun _ => seq 0 (length (s_elems s))) s) as [a| | |] eqn:Ea; try contradiction.
  destruct (delete_bad 100 2 no_away (fun _ => first 15 s) s) as [b| | |] eqn:Eb; try contradiction.
  assert (a = b) as ->; [|destruct O; congruence].
  apply (H 2 no_away (fun _ => seq 0 (length (s_elems s))) (fun _ => first 15 s) s 100 a b); auto.
  - now apply cells_consistent.
  - intros _. apply Permutation_refl.
  - intros _. now apply first_order.
Qed.
Print Assumptions trim_repeatable_refuted.

(** ** C80 *)

(** [deform] ends in every mesh whose faces are covered completely or not at all; it exchanges elements, so that exactly
    the elements on [deformable] nodes are deformed. Nodes, and which of them have elements, are the same as before;
    elements without a node and elements already marked for deletion are not touched. *)
Theorem deform_exact : forall n ord1 ord2 order st, consistent n st -> extrudable n st -> ready st ->
  some_order st ord1 -> some_order st ord2 -> (forall k, some_order st (order k)) ->
  forall fuel, length (s_elems st) < fuel -> exists st', deform fuel n ord1 ord2 order st = Ok st' /\
    consistent n st' /\ same_nodes (s_tree st) (s_tree st') /\ (no_orphans st -> no_orphans st') /\
    (forall p, (exists i, lives st' i p) <-> (exists i, lives st i p)) /\
    (forall p i, lives st' i p -> record_of st' i = 0%Z /\ (deformed st' i <-> deformable n st p)) /\
    (forall i e, nth_error (s_elems st) i = Some e -> (forall p x, subtree (s_tree st) p = Some x -> t_elem x <> Some (Z.of_nat i)) \/ e_record e = 2%Z ->
       nth_error (s_elems st') i = Some e) /\
    extrudable n st' /\ (balanced n st -> balanced n st').
Proof.
  intros n ord1 ord2 order st C0 X R P1 P2 P3 fuel L. apply consistent_Cons in C0 as C. apply (ready_Clean n st C) in R as [R1 R2].
  destruct (deform_ok n st ord1 ord2 order fuel C R1 R2 (ex_face n st X) P1 P2 P3 L) as (st' & E & C' & T & W & A & K & D & U). exists st'.
  pose proof (alike_forget n st st' C C' T A) as A1. pose proof (alike_forget n st' st C' C (eq_sym T) (fun p => eq_sym (A p))) as A2.
  split; [exact E|]. split; [now apply consistent_Cons|]. split; [now apply forget_same|].
  split; [intros Wh; apply (Whole_no_orphans n st' C'), W, (Whole_no_orphans n st C), Wh|]. split; [|split; [|split; [|split]]].
  - intros p. assert (Q : forall s, Cons n s -> (exists i, lives s i p) <-> exists_at s p = true).
    { intros s Cs. rewrite exists_at_spec. split; intros (i & Hi); exists i; now apply (lives_at n s i p Cs). }
    rewrite (Q st' C'), (Q st C), A. reflexivity.
  - intros p i Hl. apply (lives_at n st' i p C') in Hl as [H1 H2]. destruct (K p i H1) as [K0|K0]; [|contradiction]. split; [exact K0|].
    rewrite <- (D p i H1); [|apply exists_at_spec; eauto]. unfold deformed, def_of. destruct (nth_error (s_elems st') i) as [e|].
    + split; [intros (e' & E' & De); congruence|intros De; eauto].
    + split; [intros (e' & E' & _)|]; discriminate.
  - intros i e Hi Hu. apply U; [exact Hi|]. destruct Hu as [Hu|Hu]; [left|right; exact Hu]. intros p Hp.
    destruct (elem_at_cons n st p i C Hp) as (e' & lf & s & E' & _ & I & _). destruct (inf_subtree _ _ _ I) as (x & Hx & Ev). injection Ev as _ Ev _.
    apply (Hu p x Hx). congruence.
  - eapply alike_extrudable; eauto.
  - eapply alike_balanced; eauto.
Qed.
Print Assumptions deform_exact.

(** Afterwards, of the elements at one face of a deformed element all or none are deformed. *)
Theorem deform_uniform : forall n ord1 ord2 order st fuel st', consistent n st -> extrudable n st -> ready st ->
  some_order st ord1 -> some_order st ord2 -> (forall k, some_order st (order k)) -> length (s_elems st) < fuel ->
  deform fuel n ord1 ord2 order st = Ok st' ->
  forall p x i d sign q y j r z k, leaf_at (s_tree st') p x -> lives st' i p -> deformed st' i -> d < n -> unit_sign sign ->
    leaf_at (s_tree st') q y -> lives st' j q -> share_face n d sign x y -> leaf_at (s_tree st') r z -> lives st' k r -> share_face n d sign x z ->
    (deformed st' j <-> deformed st' k).
Proof.
  intros n ord1 ord2 order st fuel st' C0 X R P1 P2 P3 L E p x i d sign q y j r z k Lx Li Di Hd Hs Ly Lj Fy Lz Lk Fz.
  destruct (deform_exact n ord1 ord2 order st C0 X R P1 P2 P3 fuel L) as (s & E' & C' & N & _ & V & D & _). assert (s = st') by congruence. subst s.
  assert (Oc : forall p x i, leaf_at (s_tree st') p x -> lives st' i p -> exists x0, occupied st p x0 /\ like x x0).
  { intros p' x' i' L' H'. assert (node_at (s_tree st) p') as (x0 & Hx0) by (apply N; exists x'; apply L').
    destruct (proj1 N p' x0 Hx0) as (x1 & Hx1 & A1 & A2 & _ & A3). assert (x1 = x') by (destruct L'; congruence). subst x1.
    exists x0. split; [split; [split; [exact Hx0|apply A3, L']|apply V; eauto]|split; auto]. }
  destruct (Oc p x i Lx Li) as (x0 & Ox & Kx). destruct (Oc q y j Ly Lj) as (y0 & Oy & Ky). destruct (Oc r z k Lz Lk) as (z0 & Oz & Kz).
  apply (D p i Li) in Di. rewrite (proj2 (D q j Lj)), (proj2 (D r k Lk)).
  pose proof (like_share n d sign x y x0 y0 Kx Ky Fy) as G1. pose proof (like_share n d sign x z x0 z0 Kx Kz Fz) as G2.
  split; intros H; [eapply (df_hanging n st p x0 d sign q y0 r z0)|eapply (df_hanging n st p x0 d sign r z0 q y0)]; eauto.
Qed.
Print Assumptions deform_uniform.

(** ** the callers *)

(** When [set_surface] and [update] call these functions, the records are as assumed above; so are those that the first
    function leaves for the second one. *)
Theorem surface_ready : forall n surf start fuel st st', settled n st -> set_surface fuel n surf start st = Ok st' -> consistent n st' /\ ready st'.
Proof.
  intros n surf start fuel st st' S0 E. destruct (set_surface_same n surf start fuel st st' E (proj1 S0)) as [K R].
  assert (C : consistent n st') by (apply settled_consistent, (settled_same n st st' K R S0)). split; [exact C|].
  apply consistent_Cons in C. apply (ready_Clean n st' C). pose proof (set_surface_records n surf start fuel st st' E) as Q.
  split; [intros p i _; apply Q|]. intros i H. destruct (Q i); congruence.
Qed.
Print Assumptions surface_ready.

Theorem update_ready : forall n surf ref unref cons st fuel st', settled n st -> update_mesh fuel n surf ref unref cons st = Ok st' ->
  consistent n st' /\ balanced n st' /\ ready st'.
Proof.
  intros n surf ref unref cons st fuel st' S0 E. destruct (update_safe n surf ref unref cons st fuel S0) as [K|(s & E' & C & B)]; [congruence|].
  assert (s = st') by congruence. subst s. split; [exact C|]. split; [exact B|]. apply consistent_Cons in C. apply (ready_Clean n st' C).
  eapply update_records; eauto.
Qed.
Print Assumptions update_ready.

(** Both functions one after the other (src/Accessible_mesh.cpp:721-722, 1299-1300) *)
Definition make_layer (fuel n : nat) (away : path -> list bool -> bool) (order0 : nat -> list nat) (ord1 ord2 : list nat) (order : nat -> list nat) (st : state)
  : outcome state := let! st := delete_bad fuel n away order0 st in deform fuel n ord1 ord2 order st.

Theorem layer_made : forall n away order0 ord1 ord2 order st, consistent n st -> ready st ->
  (forall k, some_order st (order0 k)) -> some_order st ord1 -> some_order st ord2 -> (forall k, some_order st (order k)) ->
  exists fuel0, forall fuel, fuel0 <= fuel -> exists st1 st', delete_bad fuel n away order0 st = Ok st1 /\ only_marks st st1 /\
    make_layer fuel n away order0 ord1 ord2 order st = Ok st' /\ consistent n st' /\ extrudable n st' /\ (balanced n st -> balanced n st') /\
    same_nodes (s_tree st) (s_tree st') /\ (no_orphans st -> no_orphans st') /\
    forall p, ((exists i, lives st' i p) <-> (exists i, lives st1 i p)) /\
              forall i, lives st' i p -> record_of st' i = 0%Z /\ (deformed st' i <-> deformable n st1 p).
Proof.
  intros n away order0 ord1 ord2 order st C R O0 O1 O2 O3. destruct (trim_extrudable n away order0 st C O0) as (f0 & H).
  exists (f0 + S (length (s_elems st))). intros fuel L. destruct (H fuel ltac:(lia)) as (st1 & E1 & C1 & M & X & W & B & R1).
  assert (Ll : length (s_elems st1) = length (s_elems st)) by apply M.
  assert (So : forall l, some_order st l -> some_order st1 l) by (intros l; unfold some_order; now rewrite Ll).
  destruct (deform_exact n ord1 ord2 order st1 C1 X (R1 R) (So _ O1) (So _ O2) (fun k => So _ (O3 k)) fuel ltac:(lia)) as (st' & E2 & C2 & N & W2 & V & D & _ & X2 & B2).
  exists st1, st'. split; [exact E1|]. split; [exact M|]. unfold make_layer. rewrite E1. cbn [bind]. split; [exact E2|]. split; [exact C2|]. split; [exact X2|].
  split; [auto|]. split; [now rewrite <- (proj1 M)|]. split; [auto|]. intros p. split; [apply V|apply D].
Qed.
Print Assumptions layer_made.

(** The same squares, in the order of the numbers: with the two deleted elements the hole has five cells; the fourteen
    elements around it are deformed, the other forty-five are not. *)
Definition deformed_cells (st : state) : list (nat * nat) :=
  filter (fun xy => match elem_at st (cell 3 (fst xy) (snd xy)) with
                    | Some i => def_of st i && exists_at st (cell 3 (fst xy) (snd xy))
                    | None => false
                    end) (list_prod (seq 0 8) (seq 0 8)).
Definition natural (st : state) : list nat := seq 0 (length (s_elems st)).
Example cells_layer :
  match cells_mesh with
  | Ok s => match make_layer 100 2 no_away (fun _ => natural s) (natural s) (natural s) (fun _ => natural s) s with
            | Ok s' => length (where_are s') = 59 /\
                       deformed_cells s' = [(1, 1); (1, 2); (1, 3); (1, 4); (2, 1); (2, 4); (2, 5); (3, 1); (3, 5); (4, 1); (4, 2); (4, 3); (4, 4); (4, 5)]
            | _ => False
            end
  | _ => False
  end.
Proof. vm_compute. repeat split. Qed.
