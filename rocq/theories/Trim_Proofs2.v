(** [delete_bad]: the loops *)
From Coq Require Import ZArith List Bool Arith Lia Permutation.
From Verif Require Import Outcome Loop ListUtil Tree_Model Tree_Spec Tree_Proofs Tree_Thm Update_Model Update_Spec Update_Proofs1 Update_Proofs2
  Update_Proofs3 Update_Proofs4 Trim_Model Trim_Spec Trim_Proofs1.
Import ListNotations.
Local Open Scope nat_scope.

Lemma corner_dir_length n f g h : length (corner_dir n f g h) = n.
Proof. unfold corner_dir. now rewrite map_length, seq_length. Qed.

Lemma On_node n i p sc : On n i p sc -> exists x, subtree (s_tree (fst sc)) p = Some x /\ t_elem x = Some (Z.of_nat i).
Proof.
  intros [C E]. destruct (elem_at_cons n _ p i C E) as (e & lf & s & _ & _ & K & _). destruct (inf_subtree _ _ _ K) as (x & X1 & X2).
  exists x. split; [exact X1|congruence].
Qed.
Lemma fn_ok n i p sc dir : On n i p sc -> length dir = n -> exists nb, find_neighbors n (s_tree (fst sc)) p dir = Ok nb.
Proof.
  intros O L. destruct (On_node n i p sc O) as (x & Hx & _). destruct O as [[R _] _].
  destruct (tree_find_neighbors n _ p x dir R Hx) as (nb & E & _); [lia|]. eauto.
Qed.

Lemma scan_corner_ok n i p ex f g h sc : On n i p sc -> exists sc', scan_corner n i p ex f g h sc = Ok sc' /\ On n i p sc' /\ Step sc sc'.
Proof.
  intros O. unfold scan_corner. destruct (is_exposed ex h); [|exists sc; split; [reflexivity|split; [exact O|apply Step_refl]]].
  destruct (fn_ok n i p sc _ O (corner_dir_length n f g h)) as (nb & E). rewrite E. cbn [bind].
  pose proof (delete_diag_step n i p (level_at (fst sc) p) nb sc O) as S. eexists. split; [reflexivity|]. split; [eapply On_Step; eauto|exact S].
Qed.

Lemma scan_edge_ok n i p ex f g sc : On n i p sc -> exists sc', scan_edge n i p ex f g sc = Ok sc' /\ On n i p sc' /\ Step sc sc'.
Proof.
  intros O. unfold scan_edge. destruct (is_exposed ex f || is_exposed ex g); [|exists sc; split; [reflexivity|split; [exact O|apply Step_refl]]].
  destruct (fn_ok n i p sc _ O (diag_dir_length n f g)) as (nb & E). rewrite E. cbn [bind].
  destruct (is_exposed ex f && is_exposed ex g).
  - pose proof (delete_diag_step n i p (level_at (fst sc) p) nb sc O) as S.
    destruct (ofold_step (scan_corner n i p ex f g) (fun s => s) (On n i p) (seq 0 (2 * (g / 2))) _ (On_Step _ _ _ _ _ S O)) as (s2 & E2 & O2 & S2).
    { intros h s _ Os. apply scan_corner_ok, Os. }
    exists s2. split; [exact E2|]. split; [exact O2|]. eapply Step_trans; eauto.
  - destruct (n =? 3); [|exists sc; split; [reflexivity|split; [exact O|apply Step_refl]]].
    destruct (negb (all_there (fst sc) nb) && some_there (fst sc) nb) eqn:B; [|exists sc; split; [reflexivity|split; [exact O|apply Step_refl]]].
    apply andb_true_iff in B as [_ B]. destruct sc as [st ch]. cbn [fst] in *.
    pose proof (delete_children_step n nb st ch (proj1 O) B) as S. eexists. split; [reflexivity|]. split; [eapply On_Step; eauto|exact S].
Qed.

Lemma scan_face_ok n i p f sc ex : On n i p sc -> exists sc' ex', scan_face n i p f (sc, ex) = Ok (sc', ex') /\ On n i p sc' /\ Step sc sc'.
Proof.
  intros O. unfold scan_face. destruct (fn_ok n i p sc _ O (face_dir_length n f)) as (nb & E). rewrite E. cbn [bind].
  set (ex1 := ex ++ [negb (all_there (fst sc) nb)]).
  set (sc1 := if (1 <? length nb) && (some_there (fst sc) nb && negb (all_there (fst sc) nb)) then (delete_children nb (fst sc), true) else sc).
  assert (S1 : Step sc sc1).
  { unfold sc1. destruct ((1 <? length nb) && (some_there (fst sc) nb && negb (all_there (fst sc) nb))) eqn:B; [|apply Step_refl].
    apply andb_true_iff in B as [_ B]. apply andb_true_iff in B as [B _]. destruct sc as [st ch]. cbn [fst] in *.
    apply (delete_children_step n nb st ch (proj1 O) B). }
  destruct (ofold_step (scan_edge n i p ex1 f) (fun s => s) (On n i p) (seq 0 (2 * (f / 2))) sc1 (On_Step _ _ _ _ _ S1 O)) as (s2 & E2 & O2 & S2).
  { intros h s _ Os. apply scan_edge_ok, Os. }
  rewrite E2. cbn [bind]. exists s2, ex1. split; [reflexivity|]. split; [exact O2|]. eapply Step_trans; eauto.
Qed.

Lemma scan_elem_ok n away i sc : Cons n (fst sc) -> exists sc', scan_elem n away i sc = Ok sc' /\ Cons n (fst sc') /\ Step sc sc'.
Proof.
  intros C. unfold scan_elem.
  destruct (tree_of (fst sc) i) as [p|] eqn:Et; [|exists sc; split; [reflexivity|split; [exact C|apply Step_refl]]].
  destruct (record_of (fst sc) i =? 2)%Z eqn:Er; [exists sc; split; [reflexivity|split; [exact C|apply Step_refl]]|].
  apply (tree_of_at n _ _ _ C) in Et. assert (O : On n i p sc) by (split; assumption).
  destruct (ofold_step (scan_face n i p) fst (fun s => On n i p (fst s)) (seq 0 (2 * n)) (sc, []) O) as ([s1 ex] & E1 & O1 & S1).
  { intros f [s ex] _ Os. destruct (scan_face_ok n i p f s ex Os) as (s' & ex' & E & O' & S'). exists (s', ex'). auto. }
  rewrite E1. cbn [bind fst] in *. destruct (existsb (fun b => b) ex && away p ex).
  - assert (S2 : Step sc (set_record i 2 (fst s1), true)).
    { destruct O1 as [C1 K1]. split; cbn [fst snd].
      - eapply marks_trans; [apply S1|]. eapply marks_one; exact K1.
      - right. split; [reflexivity|]. pose proof (live_set (fst s1) i). destruct S1 as [M1 [->|[_ [F1|L1]]]]; [|auto|right; cbn [fst] in *; lia].
        right. apply live_set_lt; [eapply elem_at_lt; eauto|]. now apply Z.eqb_neq. }
    eexists. split; [reflexivity|]. split; [|exact S2]. eapply marks_Cons; [apply S2|exact C].
  - exists s1. split; [reflexivity|]. split; [apply O1|exact S1].
Qed.

Lemma sweep_ok n away l sc : Cons n (fst sc) -> exists sc', ofold (scan_elem n away) l sc = Ok sc' /\ Cons n (fst sc') /\ Step sc sc'.
Proof.
  intros C. apply (ofold_step (scan_elem n away) (fun s => s) (fun s => Cons n (fst s)) l sc C). intros i s _ Cs. apply scan_elem_ok, Cs.
Qed.

(** it ends, after at most as many sweeps as there are elements *)
Lemma delete_bad_ends n away order : forall fuel st, Cons n st -> live st < fuel ->
  exists st', delete_bad fuel n away order st = Ok st' /\ Cons n st' /\ marks st st' /\
    exists k, ofold (scan_elem n away) (order k) (st', false) = Ok (st', false).
Proof.
  induction fuel as [|fuel IH]; intros st C L; [lia|]. cbn [delete_bad].
  destruct (sweep_ok n away (order fuel) (st, false) C) as ([st1 ch] & E & C1 & S). rewrite E. cbn [bind]. cbn [fst] in C1.
  destruct ch.
  - destruct S as [M [K|[_ [K|K]]]]; [discriminate K|discriminate K|]. cbn [fst] in *.
    destruct (IH st1 C1) as (st' & E' & C' & M' & Q); [lia|]. exists st'. split; [exact E'|]. split; [exact C'|]. split; [eapply marks_trans; eauto|exact Q].
  - pose proof (Step_true _ _ S eq_refl) as K. injection K as ->. exists st. split; [reflexivity|]. split; [exact C|]. split; [constructor|].
    exists fuel. exact E.
Qed.
Lemma delete_bad_NoFuel n away order : forall fuel st, Cons n st ->
  delete_bad fuel n away order st = NoFuel \/ exists st', delete_bad fuel n away order st = Ok st' /\ Cons n st' /\ marks st st' /\
    exists k, ofold (scan_elem n away) (order k) (st', false) = Ok (st', false).
Proof.
  induction fuel as [|fuel IH]; intros st C; [now left|]. cbn [delete_bad].
  destruct (sweep_ok n away (order fuel) (st, false) C) as ([st1 ch] & E & C1 & S). rewrite E. cbn [bind]. cbn [fst] in C1.
  destruct ch.
  - destruct (IH st1 C1) as [K|(st' & E' & C' & M' & Q)]; [now left|right]. exists st'. split; [exact E'|]. split; [exact C'|]. split; [|exact Q].
    eapply marks_trans; [apply S|exact M'].
  - pose proof (Step_true _ _ S eq_refl) as K. injection K as ->. right. exists st. split; [reflexivity|]. split; [exact C|]. split; [constructor|].
    exists fuel. exact E.
Qed.

(** ** What holds when nothing changes *)
Definition expo (n : nat) (st : state) (p : path) (f : nat) : bool :=
  match find_neighbors n (s_tree st) p (face_dir n f) with Ok nb => negb (all_there st nb) | _ => false end.
Definition quiet_face (n i : nat) (p : path) (st : state) (f : nat) : Prop :=
  (forall nb, find_neighbors n (s_tree st) p (face_dir n f) = Ok nb -> length nb <= 1 \/ some_there st nb = false \/ all_there st nb = true) /\
  forall g, g < 2 * (f / 2) -> scan_edge n i p (map (expo n st p) (seq 0 (S f))) f g (st, false) = Ok (st, false).

Lemma scan_faces n i p st : On n i p (st, false) -> forall k sc ex, ofold (scan_face n i p) (seq 0 k) ((st, false), []) = Ok (sc, ex) ->
  On n i p sc /\ Step (st, false) sc /\ (snd sc = false -> ex = map (expo n st p) (seq 0 k) /\ forall f, f < k -> quiet_face n i p st f).
Proof.
  intros O. induction k as [|k IH]; intros sc ex E.
  - cbn in E. injection E as <- <-. split; [exact O|]. split; [apply Step_refl|]. intros _. split; [reflexivity|lia].
  - rewrite seq_S, ofold_app in E. destruct (ofold (scan_face n i p) (seq 0 k) ((st, false), [])) as [[s1 ex1]| | |] eqn:E1; try discriminate.
    destruct (IH s1 ex1 eq_refl) as (O1 & S1 & Q1). cbn [bind ofold plus] in E. destruct (scan_face_ok n i p k s1 ex1 O1) as (s2 & ex2 & E2 & O2 & S2).
    rewrite E2 in E. cbn [bind] in E. injection E as <- <-. split; [exact O2|]. split; [eapply Step_trans; eauto|]. intros F.
    pose proof (Step_true _ _ S2 F) as K. subst s2. pose proof (Step_true _ _ S1 F) as K. subst s1. destruct (Q1 eq_refl) as [X1 Q]. subst ex1.
    unfold scan_face in E2. destruct (fn_ok n i p _ _ O (face_dir_length n k)) as (nb & En). rewrite En in E2. cbn [bind fst] in E2, En.
    set (ex := map (expo n st p) (seq 0 k) ++ [negb (all_there st nb)]) in *.
    assert (Ex : ex = map (expo n st p) (seq 0 (S k))).
    { rewrite seq_S, map_app. unfold ex. f_equal. cbn. unfold expo. now rewrite En. }
    set (sc1 := if (1 <? length nb) && (some_there st nb && negb (all_there st nb)) then (delete_children nb st, true) else (st, false)) in *.
    assert (S' : Step (st, false) sc1).
    { unfold sc1. destruct ((1 <? length nb) && (some_there st nb && negb (all_there st nb))) eqn:B; [|apply Step_refl].
      apply andb_true_iff in B as [_ B]. apply andb_true_iff in B as [B _]. apply (delete_children_step n nb st false (proj1 O) B). }
    destruct (ofold_step (scan_edge n i p ex k) (fun s => s) (On n i p) (seq 0 (2 * (k / 2))) sc1 (On_Step _ _ _ _ _ S' O)) as (s2 & E3 & O3 & S3).
    { intros h s _ Os. apply scan_edge_ok, Os. }
    rewrite E3 in E2. cbn [bind] in E2. injection E2 as -> <-. pose proof (Step_true _ _ S3 eq_refl) as K. rewrite <- K in E3, S'.
    split; [exact Ex|]. intros f Hf. destruct (Nat.eq_dec f k) as [->|]; [|apply Q; lia]. split.
    + intros nb' En'. assert (nb' = nb) by congruence. subst nb'. unfold sc1 in K. destruct (Nat.ltb_spec 1 (length nb)); [|left; lia]. right.
      destruct (some_there st nb), (all_there st nb); cbn in K; auto. discriminate K.
    + intros g Hg. rewrite <- Ex. apply (ofold_quiet (scan_edge n i p ex k) (On n i p) (seq 0 (2 * (k / 2))) (st, false) O); auto.
      * intros h s _ Os. apply scan_edge_ok, Os.
      * apply in_seq. lia.
Qed.

Lemma expo_nth n st p k f : f < k -> is_exposed (map (expo n st p) (seq 0 k)) f = expo n st p f.
Proof.
  intros H. unfold is_exposed. rewrite nth_indep with (d' := expo n st p 0) by (rewrite map_length, seq_length; exact H).
  rewrite map_nth, seq_nth by exact H. reflexivity.
Qed.

Record quiet (n : nat) (away : path -> list bool -> bool) (st : state) : Prop := {
  q_face : forall i p f nb, elem_at st p = Some i -> record_of st i <> 2%Z -> f < 2 * n -> find_neighbors n (s_tree st) p (face_dir n f) = Ok nb ->
    length nb <= 1 \/ some_there st nb = false \/ all_there st nb = true;
  q_edge : forall i p f g nb, elem_at st p = Some i -> record_of st i <> 2%Z -> f < 2 * n -> g < 2 * (f / 2) ->
    find_neighbors n (s_tree st) p (diag_dir n f g) = Ok nb -> expo n st p f = true -> expo n st p g = true ->
    forall q, In q nb -> exists_at st q = true -> level_at st q < level_at st p;
  q_corner : forall i p f g h nb, elem_at st p = Some i -> record_of st i <> 2%Z -> f < 2 * n -> g < 2 * (f / 2) -> h < 2 * (g / 2) ->
    find_neighbors n (s_tree st) p (corner_dir n f g h) = Ok nb -> expo n st p f = true -> expo n st p g = true -> expo n st p h = true ->
    forall q, In q nb -> exists_at st q = true -> level_at st q < level_at st p;
  q_partial : forall i p f g nb, n = 3 -> elem_at st p = Some i -> record_of st i <> 2%Z -> f < 2 * n -> g < 2 * (f / 2) ->
    find_neighbors n (s_tree st) p (diag_dir n f g) = Ok nb -> xorb (expo n st p f) (expo n st p g) = true ->
    some_there st nb = false \/ all_there st nb = true;
  q_away : forall i p, elem_at st p = Some i -> record_of st i <> 2%Z -> existsb (expo n st p) (seq 0 (2 * n)) = true ->
    away p (map (expo n st p) (seq 0 (2 * n))) = false
}.

Lemma half_le f : 2 * (f / 2) <= f.
Proof. apply Nat.mul_div_le. lia. Qed.

Lemma quiet_holds n away st l : Cons n st -> Permutation l (seq 0 (length (s_elems st))) ->
  ofold (scan_elem n away) l (st, false) = Ok (st, false) -> quiet n away st.
Proof.
  intros C P E.
  assert (Q : forall i p, elem_at st p = Some i -> record_of st i <> 2%Z -> (forall f, f < 2 * n -> quiet_face n i p st f) /\
    (existsb (expo n st p) (seq 0 (2 * n)) = true -> away p (map (expo n st p) (seq 0 (2 * n))) = false)).
  { intros i p Hi Hr. assert (K : scan_elem n away i (st, false) = Ok (st, false)).
    { apply (ofold_quiet (scan_elem n away) (fun s => Cons n (fst s)) l (st, false) C); auto.
      - intros j s _ Cs. apply scan_elem_ok, Cs.
      - apply (Permutation_in i (Permutation_sym P)). apply in_seq. pose proof (elem_at_lt n st p i C Hi). lia. }
    unfold scan_elem in K. cbn [fst] in K. apply (tree_of_at n st i p C) in Hi. rewrite Hi in K. apply (tree_of_at n st i p C) in Hi.
    apply Z.eqb_neq in Hr. rewrite Hr in K. assert (O : On n i p (st, false)) by (split; assumption).
    destruct (ofold_step (scan_face n i p) fst (fun s => On n i p (fst s)) (seq 0 (2 * n)) ((st, false), []) O) as ([s1 ex] & E1 & O1 & S1).
    { intros f [s ex] _ Os. destruct (scan_face_ok n i p f s ex Os) as (s' & ex' & E' & O' & S'). exists (s', ex'). auto. }
    rewrite E1 in K. cbn [bind] in K. destruct (existsb (fun b => b) ex && away p ex) eqn:B; [discriminate K|]. injection K as ->.
    destruct (scan_faces n i p st O (2 * n) _ _ E1) as (_ & _ & Q). destruct (Q eq_refl) as [-> Q']. split; [exact Q'|].
    intros X. assert (Y : existsb (fun b => b) (map (expo n st p) (seq 0 (2 * n))) = true).
    { apply existsb_exists in X as (f & Hf & Xf). apply existsb_exists. exists true. split; [|reflexivity]. rewrite <- Xf. now apply in_map. }
    rewrite Y in B. exact B. }
  split.
  - intros i p f nb Hi Hr Hf En. apply (proj1 (proj1 (Q i p Hi Hr) f Hf) nb En).
  - intros i p f g nb Hi Hr Hf Hg En Xf Xg. pose proof (proj2 (proj1 (Q i p Hi Hr) f Hf) g Hg) as K. pose proof (half_le f).
    unfold scan_edge in K. cbn [fst] in K. rewrite !expo_nth, Xf, Xg, En in K by lia. cbn [orb andb bind] in K.
    assert (O : On n i p (st, false)) by (split; assumption).
    destruct (ofold_step (scan_corner n i p (map (expo n st p) (seq 0 (S f))) f g) (fun s => s) (On n i p) (seq 0 (2 * (g / 2))) _
      (On_Step _ _ _ _ _ (delete_diag_step n i p (level_at st p) nb (st, false) O) O)) as (s2 & E2 & O2 & S2).
    { intros h s _ Os. apply scan_corner_ok, Os. }
    rewrite E2 in K. injection K as ->. pose proof (Step_true _ _ S2 eq_refl) as K. apply (delete_diag_quiet n i p (level_at st p) nb st O). congruence.
  - intros i p f g h nb Hi Hr Hf Hg Hh En Xf Xg Xh. pose proof (proj2 (proj1 (Q i p Hi Hr) f Hf) g Hg) as K. pose proof (half_le f). pose proof (half_le g).
    assert (O : On n i p (st, false)) by (split; assumption). destruct (fn_ok n i p _ _ O (diag_dir_length n f g)) as (nb1 & En1).
    unfold scan_edge in K. cbn [fst] in K, En1. rewrite !expo_nth, Xf, Xg, En1 in K by lia. cbn [orb andb bind] in K.
    set (s1 := delete_diag i (level_at st p) nb1 (st, false)) in *.
    assert (S1 : Step (st, false) s1) by (apply (delete_diag_step n i p), O).
    destruct (ofold_step (scan_corner n i p (map (expo n st p) (seq 0 (S f))) f g) (fun s => s) (On n i p) (seq 0 (2 * (g / 2))) s1 (On_Step _ _ _ _ _ S1 O))
      as (s2 & E2 & O2 & S2).
    { intros h' s _ Os. apply scan_corner_ok, Os. }
    pose proof E2 as K2. rewrite K in K2. injection K2 as <-. pose proof (Step_true _ _ S2 eq_refl) as K2. rewrite <- K2 in K.
    assert (K3 : scan_corner n i p (map (expo n st p) (seq 0 (S f))) f g h (st, false) = Ok (st, false)).
    { apply (ofold_quiet (scan_corner n i p (map (expo n st p) (seq 0 (S f))) f g) (On n i p) (seq 0 (2 * (g / 2))) (st, false) O); auto.
      - intros h' s _ Os. apply scan_corner_ok, Os.
      - apply in_seq. lia. }
    unfold scan_corner in K3. cbn [fst] in K3. rewrite expo_nth, Xh, En in K3 by lia. cbn [bind] in K3. injection K3 as K3.
    apply (delete_diag_quiet n i p (level_at st p) nb st O K3).
  - intros i p f g nb -> Hi Hr Hf Hg En X. pose proof (proj2 (proj1 (Q i p Hi Hr) f Hf) g Hg) as K. pose proof (half_le f).
    unfold scan_edge in K. cbn [fst] in K. rewrite !expo_nth, En in K by lia. cbn [bind] in K.
    assert (B : negb (all_there st nb) && some_there st nb = false).
    { destruct (negb (all_there st nb) && some_there st nb) eqn:B; [exfalso|reflexivity].
      destruct (expo 3 st p f), (expo 3 st p g); cbn in X; try discriminate X; cbn in K; discriminate K. }
    destruct (all_there st nb); [auto|left]. exact B.
  - intros i p Hi Hr X. apply (Q i p Hi Hr), X.
Qed.
