(** What is true of the records when [delete_bad_extrusions] and [deform] are called, and what they keep. *)
From Coq Require Import ZArith QArith List Bool Arith Lia Permutation.
From Verif Require Import Outcome Loop ListUtil Tree_Model Tree_Spec Tree_Proofs Update_Model Update_Spec Update_Proofs1
  Update_Proofs2 Update_Proofs3 Update_Proofs4 Update_Proofs5 Update_Proofs6 Update_Proofs7 Update_Proofs8 Update_Proofs9 Trim_Model Trim_Spec Trim_Proofs1
  Trim_Proofs2 Trim_Proofs3 Trim_Proofs4 Trim_Proofs5 Trim_Proofs6.
Import ListNotations.
Local Open Scope nat_scope.

Lemma bind_ok {A B} (o : outcome A) (f : A -> outcome B) b : bind o f = Ok b -> exists a, o = Ok a /\ f a = Ok b.
Proof. destruct o; cbn; intros H; try discriminate. eauto. Qed.
Lemma ofold_keep {X S} (f : X -> S -> outcome S) (I : S -> Prop) l : (forall x s s', f x s = Ok s' -> I s -> I s') ->
  forall s s', ofold f l s = Ok s' -> I s -> I s'.
Proof.
  intros H. induction l as [|x l IH]; cbn [ofold]; intros s s' E Hs; [congruence|]. apply bind_ok in E as (s1 & E1 & E2). eapply IH; eauto.
Qed.

Ltac keep I E := refine (ofold_keep _ I _ _ _ _ E _).

(** ** all records are in a set *)
Section Rec.
Variable (A : Z -> Prop).
Hypothesis (A0 : A 0%Z) (A2 : A 2%Z).
Definition Rec (st : state) : Prop := forall i e, nth_error (s_elems st) i = Some e -> A (e_record e).

Lemma Rec_elems st st' : s_elems st' = s_elems st -> Rec st -> Rec st'.
Proof. intros E R i e H. rewrite E in H. eauto. Qed.
Lemma Rec_set st i r : A r -> Rec st -> Rec (set_record i r st).
Proof.
  intros Ar R j e H. rewrite nth_set in H. destruct (Nat.eqb_spec i j); [|eauto]. destruct (nth_error (s_elems st) j); [|discriminate].
  injection H as <-. exact Ar.
Qed.
Lemma Rec_on_tree n op st st' : on_tree n op st = Ok st' -> Rec st -> Rec st'.
Proof. unfold on_tree. intros E. apply bind_ok in E as (t & _ & E). injection E as <-. now apply Rec_elems. Qed.
Lemma Rec_add n d p st st' : add_elem n d p st = Ok st' -> Rec st -> Rec st'.
Proof.
  unfold add_elem. intros E R. apply bind_ok in E as (s1 & E1 & E). injection E as <-. intros i e H. cbn [s_elems] in H.
  rewrite nth_app_one in H. destruct (i <? length (s_elems s1)); [eapply (Rec_on_tree n _ st s1); eauto|]. destruct (i =? length (s_elems s1)); [|discriminate].
  injection H as <-. exact A0.
Qed.
Lemma Rec_delete qs : forall st, Rec st -> Rec (delete_children qs st).
Proof. induction qs as [|q qs IH]; intros st R; cbn; [exact R|]. apply IH. destruct (elem_at st q); [now apply Rec_set|exact R]. Qed.
Lemma Rec_refine_status n surf p st st' : refine_set_status n surf p st = Ok st' -> Rec st -> Rec st'.
Proof.
  unfold refine_set_status. intros E R. apply bind_ok in E as (s1 & E1 & E). keep Rec E; [intros; eapply Rec_on_tree; eauto|].
  eapply Rec_on_tree; eauto.
Qed.
Lemma Rec_refine n surf b st st' : refine_by_record n surf b st = Ok st' -> Rec st -> Rec st'.
Proof.
  unfold refine_by_record. intros E0 R0. keep Rec E0; [|exact R0]. intros i s s' E R. unfold refine_one in E. destruct (tree_of s i) as [p|]; [|now injection E as <-].
  destruct (record_of s i =? 1)%Z; [|now injection E as <-]. apply bind_ok in E as (s1 & E1 & E). keep Rec E; [intros; eapply Rec_add; eauto|]. eapply Rec_refine_status; eauto. now apply Rec_set.
Qed.
Lemma Rec_unrefine n orig : forall fuel st st', unrefine_loop fuel n orig st = Ok st' -> Rec st -> Rec st'.
Proof.
  induction fuel as [|fuel IH]; intros st st' E R; [discriminate|]. cbn [unrefine_loop] in E. apply bind_ok in E as ([s1 ch] & E1 & E).
  assert (R1 : Rec s1).
  { change (Rec (fst (s1, ch))). unfold unrefine_sweep in E1. keep (fun sc : state * bool => Rec (fst sc)) E1; [|exact R]. clear - A0 A2. intros i [s c] sc' E R. unfold unrefine_one in E.
    destruct (tree_of s i) as [p|]; [|now injection E as <-]. destruct (record_of s i =? -1)%Z; [|now injection E as <-].
    destruct p as [|a p]; [now injection E as <-|]. cbv zeta in E. cbn [fst] in R.
    match goal with E : (if ?b then _ else _) = _ |- _ => destruct b end; [|injection E as <-; now apply Rec_set].
    apply bind_ok in E as (bad & _ & E). destruct bad; [now injection E as <-|]. apply bind_ok in E as (s2 & E2 & E). apply bind_ok in E as (s3 & E3 & E).
    injection E as <-. eapply Rec_add; eauto. eapply Rec_on_tree; eauto. now apply Rec_delete. }
  destruct ch; [eapply IH; eauto|]. now injection E as <-.
Qed.
Lemma Rec_unfill n0 st : Rec st -> Rec (unfill n0 st).
Proof.
  unfold unfill. generalize (seq n0 (length (s_elems st) - n0)). intros l. revert st. induction l as [|i l IH]; intros st R; cbn [fold_left]; [exact R|].
  apply IH. destruct (tree_of st i); [|exact R]. destruct (negb _ && _); [now apply Rec_set|exact R].
Qed.
Lemma Rec_sync n surf p d sc sc' : sync_one n surf p d sc = Ok sc' -> Rec (fst sc) -> Rec (fst sc').
Proof.
  destruct sc as [s c]. unfold sync_one. intros E R. cbn [fst] in R. apply bind_ok in E as (nb & _ & E). destruct nb as [q|]; [|now injection E as <-].
  destruct (exists_at s q); [now injection E as <-|]. destruct (level_at s p <? level_at s q).
  - destruct q as [|a q]; [discriminate|]. cbv zeta in E. destruct (forallb _ _); [|now injection E as <-].
    apply bind_ok in E as (bad & _ & E). destruct bad; [now injection E as <-|]. apply bind_ok in E as (s2 & E2 & E). injection E as <-.
    eapply Rec_on_tree; eauto. now apply Rec_delete.
  - destruct (level_at s q + 1 <? level_at s p); [apply bind_ok in E as (s2 & E2 & E); injection E as <-; eapply Rec_refine_status; eauto|].
    destruct (level_at s q <? level_at s p); [|now injection E as <-]. apply bind_ok in E as (m & _ & E).
    match goal with E : (if ?b then _ else _) = _ |- _ => destruct b end; [|now injection E as <-].
    apply bind_ok in E as (s2 & E2 & E); injection E as <-; eapply Rec_refine_status; eauto.
Qed.
Lemma Rec_fill n b i sc sc' : fill_elem n b i sc = Ok sc' -> Rec (fst sc) -> Rec (fst sc').
Proof.
  unfold fill_elem. intros E R. destruct (tree_of (fst sc) i) as [p|]; [|now injection E as <-]. destruct (exists_at (fst sc) p); [|now injection E as <-].
  keep (fun sc : state * bool => Rec (fst sc)) E; [|exact R]. clear - A0. intros f s s' E R. apply bind_ok in E as (nb & _ & E).
  keep (fun sc : state * bool => Rec (fst sc)) E; [|exact R]. clear - A0. intros q [s1 c] s2 E R. unfold fill_one in E. destruct (negb _ && _); [|now injection E as <-].
  apply bind_ok in E as (s3 & E3 & E). apply bind_ok in E as (s4 & E4 & E). injection E as <-. eapply Rec_on_tree; eauto. eapply Rec_add; eauto.
Qed.
Lemma Rec_flood n surf : forall fuel st st', flood_loop' fuel n surf st = Ok st' -> Rec st -> Rec st'.
Proof.
  induction fuel as [|fuel IH]; intros st st' E R; [discriminate|]. cbn [flood_loop'] in E. apply bind_ok in E as ([s1 ch] & E1 & E).
  assert (R1 : Rec s1).
  { unfold flood_iter in E1. apply bind_ok in E1 as (s2 & E2 & E1). apply bind_ok in E1 as (s3 & E3 & E1). change (Rec (fst (s1, ch))).
    keep (fun sc : state * bool => Rec (fst sc)) E1; [intros; eapply Rec_fill; eauto|].
    keep (fun sc : state * bool => Rec (fst sc)) E3; [intros; eapply Rec_fill; eauto|].
    keep (fun sc : state * bool => Rec (fst sc)) E2; [|exact R]. clear - A0 A2. intros i sc sc' E R. unfold sync_elem in E.
    destruct (tree_of (fst sc) i) as [p|]; [|now injection E as <-]. destruct (exists_at (fst sc) p); [|now injection E as <-].
    keep (fun sc : state * bool => Rec (fst sc)) E; [|exact R]. clear - A0 A2. intros f s s' E R. destruct (tree_of (fst s) i); [|discriminate]. eapply Rec_sync; eauto. }
  destruct ch; [eapply IH; eauto|]. now injection E as <-.
Qed.
End Rec.

Lemma update_records n surf ref unref cons st fuel st' : settled n st -> update_mesh fuel n surf ref unref cons st = Ok st' ->
  Clean st' /\ forall i, record_of st' i <> 3%Z.
Proof.
  intros S0 E. rewrite update_eq in E. set (sa := asked ref unref cons st) in *.
  pose proof (asked_cons ref unref cons st n S0) as C. fold sa in C.
  set (A := fun z => (z = -1 \/ z = 0 \/ z = 1 \/ z = 2)%Z). set (B := fun z => (z = 0 \/ z = 1 \/ z = 2)%Z).
  assert (Ra : Rec A sa).
  { intros i e H. pose proof (asked_bounded ref unref cons st i e H). unfold A. lia. }
  destruct (refine_both n surf sa C) as (s1 & E1 & F1 & St1 & D1). rewrite E1 in E. cbn [bind] in E.
  pose proof (refined_no1' n surf sa s1 C F1 St1 D1) as N1.
  assert (R1 : Rec A s1).
  { apply bind_ok in E1 as (s & Es & E1). eapply Rec_refine; [| |exact E1|]; [unfold A; lia..|]. eapply Rec_refine; [| |exact Es|exact Ra]; unfold A; lia. }
  destruct (unrefine_ok n (container sa) fuel s1 (f_cons _ _ _ _ F1)) as [K|(s2 & E2 & F2)]; [rewrite K in E; discriminate|].
  rewrite E2 in E. cbn [bind] in E. pose proof (coarser_no1 n s1 s2 (f_cons _ _ _ _ F1) F2 N1) as N2.
  assert (R2 : Rec A s2) by (eapply Rec_unrefine; [| |exact E2|exact R1]; unfold A; lia).
  assert (R3 : Rec B (reset_denied s2)).
  { intros i e H. cbn [s_elems reset_denied] in H. rewrite nth_error_map in H. destruct (nth_error (s_elems s2) i) as [e0|] eqn:E0; [|discriminate].
    cbn in H. injection H as <-. specialize (R2 i e0 E0). destruct (Z.eqb_spec (e_record e0) (-1)); cbn; unfold A, B in *; lia. }
  pose proof (reset_cons n s2 (c_cons _ _ _ F2)) as C3.
  destruct (unfill_ok n (length (s_elems sa)) (reset_denied s2) C3) as (C4 & _ & N4). specialize (N4 (reset_no1 s2 N2)).
  assert (R4 : Rec B (unfill (length (s_elems sa)) (reset_denied s2))) by (apply Rec_unfill; auto; unfold B; lia).
  destruct (flood_ok n surf fuel (unfill (length (s_elems sa)) (reset_denied s2)) C4) as [K|(s3 & E3 & (C5 & _ & N5))]; [rewrite K in E; discriminate|].
  rewrite E3 in E. cbn [bind] in E. assert (R5 : Rec B s3) by (eapply Rec_flood; [| |exact E3|exact R4]; unfold B; lia).
  destruct (smooth_ok n surf fuel s3 C5 (N5 N4)) as [K|(s4 & E4 & F4 & N6 & Bal)]; [rewrite K in E; discriminate|].
  rewrite E4 in E. injection E as <-.
  assert (R6 : forall i e, nth_error (s_elems s4) i = Some e -> B (e_record e)).
  { intros i e H. destruct (Nat.lt_ge_cases i (length (s_elems s3))) as [L|L].
    - destruct (nth_error (s_elems s3) i) as [e3|] eqn:E0; [|apply nth_error_None in E0; lia]. specialize (R5 i e3 E0).
      destruct (f_rec _ _ _ _ F4 i L) as [K|[_ K]]; rewrite (record_of_nth _ _ _ H) in K; [rewrite (record_of_nth _ _ _ E0) in K; congruence|unfold B; lia].
    - destruct (f_new _ _ _ _ F4 i e L H) as [K|K]; unfold B; lia. }
  split.
  - intros p i H. destruct (elem_at_cons n s4 p i (f_cons _ _ _ _ F4) H) as (e & lf & s & Ee & _). pose proof (N6 p i H) as N. specialize (R6 i e Ee).
    rewrite (record_of_nth _ _ _ Ee) in *. unfold B in R6. lia.
  - intros i. unfold record_of. destruct (nth_error (s_elems s4) i) as [e|] eqn:Ee; [|lia]. specialize (R6 i e Ee). unfold B in R6. lia.
Qed.

Lemma drop_records st : let st' := drop_unreached st in (forall i, tree_of st i <> None -> exists p x, tree_of st i = Some p /\ subtree (s_tree st) p = Some x) ->
  forall i, record_of st' i = 0%Z \/ record_of st' i = 2%Z.
Proof.
  intros st' Hn i. unfold st', drop_unreached.
  destruct (Nat.lt_ge_cases i (length (s_elems st))) as [L|L].
  2:{ right. unfold record_of. assert (Hl : length (s_elems (drop_unreached st)) = length (s_elems st)).
      { unfold drop_unreached. generalize (seq 0 (length (s_elems st))). clear. intros l. revert st. induction l as [|j l IH]; intros st; cbn [fold_left]; [reflexivity|].
        rewrite IH. destruct (tree_of st j) as [p|]; [|apply length_set]. destruct (subtree (s_tree st) p); [|reflexivity]. destruct (t_status t =? 1)%Z; apply length_set. }
      assert (nth_error (s_elems (drop_unreached st)) i = None) as K by (apply nth_error_None; lia). unfold drop_unreached in K. now rewrite K. }
  assert (K : forall l s, s_tree s = s_tree st -> length (s_elems s) = length (s_elems st) -> (forall j, tree_of s j = tree_of st j) ->
    In i l \/ record_of s i = 0%Z \/ record_of s i = 2%Z ->
    let s' := fold_left (fun st i => match tree_of st i with
                         | Some p => match subtree (s_tree st) p with
                                     | Some x => if (t_status x =? 1)%Z then set_record i 0 st else set_record i 2 st
                                     | None => st
                                     end
                         | None => set_record i 0 st
                         end) l s in record_of s' i = 0%Z \/ record_of s' i = 2%Z).
  { induction l as [|j l IH]; intros s T Ln Tr H; cbn [fold_left].
    - destruct H as [[]|H]. exact H.
    - assert (Q : exists r, (r = 0 \/ r = 2)%Z /\ match tree_of s j with
                         | Some p => match subtree (s_tree s) p with
                                     | Some x => if (t_status x =? 1)%Z then set_record j 0 s else set_record j 2 s
                                     | None => s
                                     end
                         | None => set_record j 0 s
                         end = set_record j r s).
      { rewrite Tr, T. destruct (tree_of st j) as [p|] eqn:Et; [|exists 0%Z; auto]. destruct (Hn j) as (p' & x & Ep & Hx); [congruence|].
        rewrite Et in Ep. injection Ep as <-. rewrite Hx. destruct (t_status x =? 1)%Z; [exists 0%Z|exists 2%Z]; auto. }
      destruct Q as (r & Hr & ->). apply IH.
      + exact T.
      + rewrite length_set. exact Ln.
      + intros k. rewrite <- (Tr k). unfold tree_of. rewrite nth_set. destruct (j =? k); [|reflexivity].
        destruct (nth_error (s_elems s) k) as [e|]; reflexivity.
      + rewrite record_set. destruct (Nat.eqb_spec j i) as [->|Hne].
        * right. destruct (Nat.ltb_spec i (length (s_elems s))); [cbn; exact Hr|lia].
        * cbn. destruct H as [[->|H]|H]; [contradiction|auto|auto]. }
  apply K; auto. left. apply in_seq. lia.
Qed.

Lemma set_surface_records n surf start fuel st st' : set_surface fuel n surf start st = Ok st' -> forall i, record_of st' i = 0%Z \/ record_of st' i = 2%Z.
Proof.
  unfold set_surface. intros E. apply bind_ok in E as (s1 & _ & E). apply bind_ok in E as (s2 & _ & E). injection E as <-. apply drop_records.
  intros i H. destruct (tree_of s2 i) as [p|] eqn:Et; [|contradiction]. exists p. unfold tree_of in Et. destruct (nth_error (s_elems s2) i) as [e|]; [|discriminate].
  destruct (e_path e) as [q|]; [|discriminate]. destruct (elem_at s2 q) as [j|] eqn:Ea; [|discriminate]. destruct (j =? i); [|discriminate]. injection Et as ->.
  unfold elem_at in Ea. destruct (subtree (s_tree s2) p) as [x|]; [|discriminate]. eauto.
Qed.

(** ** geometry does not depend on the elements *)
Definition like (x y : tree) : Prop := t_level x = t_level y /\ t_coords x = t_coords y.
Lemma like_lo x y i : like x y -> lo x i = lo y i.
Proof. intros [A B]. unfold lo, coord. now rewrite A, B. Qed.
Lemma like_hi x y i : like x y -> hi x i = hi y i.
Proof. intros [A B]. unfold hi, coord. now rewrite A, B. Qed.
Lemma like_share n d s x y x' y' : like x x' -> like y y' -> share_face n d s x y -> share_face n d s x' y'.
Proof.
  intros A B [H1 H2]. split.
  - rewrite <- (like_lo _ _ d A), <- (like_lo _ _ d B), <- (like_hi _ _ d A), <- (like_hi _ _ d B). exact H1.
  - intros i Hi Hd. rewrite <- (like_lo _ _ i A), <- (like_lo _ _ i B), <- (like_hi _ _ i A), <- (like_hi _ _ i B). auto.
Qed.
Lemma like_touches n dir x y x' y' : like x x' -> like y y' -> touches n dir x y -> touches n dir x' y'.
Proof.
  intros A B H i Hi. rewrite <- (like_lo _ _ i A), <- (like_lo _ _ i B), <- (like_hi _ _ i A), <- (like_hi _ _ i B). auto.
Qed.
Lemma like_sym x y : like x y -> like y x. Proof. intros [A B]. split; auto. Qed.

(** the same nodes with elements *)
Definition alike (st st' : state) : Prop :=
  forall p x, (leaf_at (s_tree st) p x -> exists x', leaf_at (s_tree st') p x' /\ like x x') /\
              (occupied st p x -> exists x', occupied st' p x' /\ like x x').
Lemma forget_like t t' p x : forget_elem t' = forget_elem t -> leaf_at t p x -> exists x', leaf_at t' p x' /\ like x x'.
Proof.
  intros E [H L]. destruct (proj1 (forget_same t t' E) p x H) as (x' & H' & A & B & _ & D). exists x'. split; [split; [exact H'|tauto]|split; auto].
Qed.
Lemma alike_forget n st st' : Cons n st -> Cons n st' -> forget_elem (s_tree st') = forget_elem (s_tree st) -> (forall p, exists_at st' p = exists_at st p) -> alike st st'.
Proof.
  intros C C' E X p x. split; [now apply forget_like|]. intros O. destruct (forget_like _ _ p x E (proj1 O)) as (x' & L' & K). exists x'. split; [|exact K].
  apply (exists_occupied n st' p x' C' L'). rewrite X. apply (exists_occupied n st p x C (proj1 O)), O.
Qed.

Lemma alike_balanced n st st' : alike st' st -> balanced n st -> balanced n st'.
Proof.
  intros A B p x q y Ox Oy. destruct (proj2 (A p x) Ox) as (x0 & Ox0 & Kx). destruct (proj2 (A q y) Oy) as (y0 & Oy0 & Ky).
  destruct (B p x0 q y0 Ox0 Oy0) as [B1 B2]. rewrite (proj1 Kx), (proj1 Ky). split.
  - intros d s Hd Hs F. apply (B1 d s Hd Hs). eapply like_share; eauto.
  - intros dir D T. apply (B2 dir D). eapply like_touches; eauto.
Qed.

Lemma alike_covered n st st' x x' d s : alike st st' -> alike st' st -> like x x' -> covered_face n st x d s -> covered_face n st' x' d s.
Proof.
  intros A A' K H q y' Ly F. destruct (proj1 (A' q y') Ly) as (y & Ly0 & Ky). assert (O : occupied st q y).
  { apply H; [exact Ly0|]. eapply like_share; [apply like_sym, K|exact Ky|exact F]. }
  destruct (proj2 (A q y) O) as (y1 & O1 & _). assert (y1 = y') as <- by (eapply leaf_unique; [apply O1|exact Ly]). exact O1.
Qed.

Lemma alike_extrudable n st st' : alike st st' -> alike st' st -> extrudable n st -> extrudable n st'.
Proof.
  intros A A' [E1 E2 E3 E4].
  assert (Sc : forall x x0 dir d, like x x0 -> side_covered n st x0 dir d <-> side_covered n st' x dir d).
  { intros x x0 dir d K. split; unfold side_covered; intros H; [eapply (alike_covered n st st'); eauto; now apply like_sym|eapply (alike_covered n st' st); eauto]. }
  split.
  - intros p x q y d s Ox Oy Hd Hs F. destruct (proj2 (A' p x) Ox) as (x0 & Ox0 & Kx). destruct (proj2 (A' q y) Oy) as (y0 & Oy0 & Ky).
    eapply (alike_covered n st st' x0 x); eauto; [now apply like_sym|]. apply (E1 p x0 q y0 d s); auto. eapply like_share; eauto.
  - intros p x q y dir a b Ox Oy D T L. destruct (proj2 (A' p x) Ox) as (x0 & Ox0 & Kx). destruct (proj2 (A' q y) Oy) as (y0 & Oy0 & Ky).
    rewrite <- !(Sc x x0) by exact Kx. apply (E2 p x0 q y0 dir a b); auto; [eapply like_touches; eauto|]. rewrite <- (proj1 Kx), <- (proj1 Ky). exact L.
  - intros p x q y dir a b c Ox Oy D T L. destruct (proj2 (A' p x) Ox) as (x0 & Ox0 & Kx). destruct (proj2 (A' q y) Oy) as (y0 & Oy0 & Ky).
    rewrite <- !(Sc x x0) by exact Kx. apply (E3 p x0 q y0 dir a b c); auto; [eapply like_touches; eauto|]. rewrite <- (proj1 Kx), <- (proj1 Ky). exact L.
  - intros n3 p x q y dir a b Ox Oy D T P q' y' Ly Ty. destruct (proj2 (A' p x) Ox) as (x0 & Ox0 & Kx). destruct (proj2 (A' q y) Oy) as (y0 & Oy0 & Ky).
    destruct (proj1 (A' q' y') Ly) as (y1 & Ly1 & Ky1). rewrite <- !(Sc x x0) in P by exact Kx.
    assert (O1 : occupied st q' y1) by (apply (E4 n3 p x0 q y0 dir a b Ox0 Oy0 D); auto; eapply like_touches; eauto).
    destruct (proj2 (A q' y1) O1) as (y2 & O2 & _). assert (y2 = y') as <- by (eapply leaf_unique; [apply O2|exact Ly]). exact O2.
Qed.

(** ** marks for deletion *)
Lemma marks_exists n a b q : marks a b -> Cons n a -> exists_at b q = true -> exists_at a q = true.
Proof.
  intros M C H. apply exists_at_spec in H as (i & Hi & R). apply exists_at_spec. exists i. rewrite (marks_elem_at a b q M) in Hi. split; [exact Hi|].
  destruct (elem_at_cons n a q i C Hi) as (e & _ & _ & Ee & _). destruct (marks_nth n a b M C i e Ee) as (e' & Ee' & _ & _ & _ & K).
  rewrite (record_of_nth _ _ _ Ee'), (record_of_nth _ _ _ Ee) in *. destruct K as [K|[K _]]; congruence.
Qed.
Lemma marks_occupied n a b p x : marks a b -> Cons n a -> occupied b p x -> occupied a p x.
Proof.
  intros M C O. pose proof (marks_Cons n a b M C) as Cb. assert (L : leaf_at (s_tree a) p x) by (rewrite <- (marks_tree a b M); apply O).
  apply (exists_occupied n a p x C L), (marks_exists n a b p M C), (exists_occupied n b p x Cb (proj1 O)), O.
Qed.
Lemma marks_balanced n a b : marks a b -> Cons n a -> balanced n a -> balanced n b.
Proof. intros M C B p x q y Ox Oy. apply (B p x q y); eapply marks_occupied; eauto. Qed.
Lemma marks_Whole n a b : marks a b -> Cons n a -> Whole a -> Whole b.
Proof. intros M C. induction M as [|st q j st' H M IH]; [auto|]. intros W. apply IH; [apply Cons_set; auto; lia|]. apply Whole_set; auto. Qed.
Lemma marks_records n a b : marks a b -> Cons n a -> Clean a -> (forall i, record_of a i <> 3%Z) -> Clean b /\ forall i, record_of b i <> 3%Z.
Proof.
  intros M C K N. split.
  - intros p i H. rewrite (marks_elem_at a b p M) in H. destruct (elem_at_cons n a p i C H) as (e & _ & _ & Ee & _).
    destruct (marks_nth n a b M C i e Ee) as (e' & Ee' & _ & _ & _ & Q). specialize (K p i H). rewrite (record_of_nth _ _ _ Ee) in K. rewrite (record_of_nth _ _ _ Ee').
    destruct Q as [->|[Q _]]; auto.
  - intros i. unfold record_of. destruct (nth_error (s_elems b) i) as [e'|] eqn:Eb; [|lia].
    destruct (nth_error (s_elems a) i) as [e|] eqn:Ea.
    + destruct (marks_nth n a b M C i e Ea) as (e2 & E2 & _ & _ & _ & Q). assert (e2 = e') by congruence. subst e2. specialize (N i).
      rewrite (record_of_nth _ _ _ Ea) in N. destruct Q as [->|[-> _]]; [exact N|lia].
    + apply nth_error_None in Ea. rewrite <- (marks_length a b M) in Ea. apply nth_error_None in Ea. congruence.
Qed.
