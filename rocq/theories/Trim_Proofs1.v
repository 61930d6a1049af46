(** [delete_bad]: it ends, and what holds when it has ended. *)
From Coq Require Import ZArith List Bool Arith Lia Permutation.
From Verif Require Import Outcome Loop ListUtil Tree_Model Tree_Spec Tree_Proofs Update_Model Update_Spec Update_Proofs1 Update_Proofs2
  Update_Proofs3 Update_Proofs4 Trim_Model Trim_Spec.
Import ListNotations.
Local Open Scope nat_scope.

(** ** Marking *)
Inductive marks : state -> state -> Prop :=
| marks_refl st : marks st st
| marks_step st q j st' : elem_at st q = Some j -> marks (set_record j 2 st) st' -> marks st st'.

Lemma marks_trans a b c : marks a b -> marks b c -> marks a c.
Proof. induction 1 as [|st q j st' E _ IH]; [auto|]. intros H. eapply marks_step; eauto. Qed.
Lemma marks_one st q j : elem_at st q = Some j -> marks st (set_record j 2 st).
Proof. intros H. eapply marks_step; [exact H|]. constructor. Qed.
Lemma marks_tree a b : marks a b -> s_tree b = s_tree a.
Proof. induction 1 as [|st q j st' E _ IH]; [reflexivity|exact IH]. Qed.
Lemma marks_Cons n a b : marks a b -> Cons n a -> Cons n b.
Proof. induction 1 as [|st q j st' E _ IH]; [auto|]. intros C. apply IH, Cons_set; auto. Qed.
Lemma marks_length a b : marks a b -> length (s_elems b) = length (s_elems a).
Proof. induction 1 as [|st q j st' E _ IH]; [reflexivity|]. rewrite IH. apply length_set. Qed.
Lemma marks_level a b q : marks a b -> level_at b q = level_at a q.
Proof. intros H. unfold level_at. now rewrite (marks_tree a b H). Qed.
Lemma marks_elem_at a b q : marks a b -> elem_at b q = elem_at a q.
Proof. intros H. apply elem_at_tree, marks_tree, H. Qed.

Lemma marks_nth n a b : marks a b -> Cons n a -> forall i e, nth_error (s_elems a) i = Some e ->
  exists e', nth_error (s_elems b) i = Some e' /\ e_path e' = e_path e /\ e_def e' = e_def e /\ e_locked e' = e_locked e /\
    (e_record e' = e_record e \/ e_record e' = 2%Z /\ exists p, elem_at a p = Some i).
Proof.
  induction 1 as [|st q j st' E _ IH]; intros C i e H; [exists e; auto 10|].
  assert (C' : Cons n (set_record j 2 st)) by (apply Cons_set; auto).
  assert (K : nth_error (s_elems (set_record j 2 st)) i = Some (if j =? i then put_record 2 e else e)).
  { rewrite nth_set, H. now destruct (j =? i). }
  destruct (IH C' i _ K) as (e' & H1 & H2 & H3 & H4 & H5). exists e'. destruct (Nat.eqb_spec j i) as [->|Hne]; cbn in *.
  - repeat split; auto. right. destruct H5 as [->|[-> _]]; split; eauto.
  - repeat split; auto.
Qed.

Lemma marks_only n a b : marks a b -> Cons n a -> only_marks a b.
Proof.
  intros H C. split; [apply marks_tree, H|split; [apply marks_length, H|]]. intros i e Hi.
  destruct (marks_nth n a b H C i e Hi) as (e' & H1 & H2 & H3 & H4 & H5). exists e'. repeat split; auto.
  destruct H5 as [H5|[H5 [p Hp]]]; [auto|right; split; [exact H5|]]. destruct (elem_at_cons n a p i C Hp) as (e1 & lf & s & _ & _ & K & _).
  destruct (inf_subtree _ _ _ K) as (x & X1 & X2). exists p, x. split; [exact X1|]. congruence.
Qed.

Definition live (st : state) : nat := length (filter (fun e => negb (e_record e =? 2)%Z) (s_elems st)).
Lemma live_set_list l : forall j, length (filter (fun e => negb (e_record e =? 2)%Z) (update_nth j (put_record 2) l)) <=
    length (filter (fun e => negb (e_record e =? 2)%Z) l) /\
  (forall e, nth_error l j = Some e -> e_record e <> 2%Z ->
     length (filter (fun e => negb (e_record e =? 2)%Z) (update_nth j (put_record 2) l)) < length (filter (fun e => negb (e_record e =? 2)%Z) l)).
Proof.
  induction l as [|e l IH]; intros j; [destruct j; cbn; split; intros; try lia; discriminate|]. destruct j as [|j]; cbn.
  - destruct (Z.eqb_spec (e_record e) 2) as [E|E]; cbn; split; try lia; intros e' H K; injection H as <-; try contradiction; lia.
  - destruct (IH j) as [I1 I2]. destruct (negb (e_record e =? 2)%Z); cbn; (split; [lia|]); intros e' H1 H2; specialize (I2 e' H1 H2); lia.
Qed.
Lemma live_set st j : live (set_record j 2 st) <= live st.
Proof. apply live_set_list. Qed.
Lemma live_set_lt st j : j < length (s_elems st) -> record_of st j <> 2%Z -> live (set_record j 2 st) < live st.
Proof.
  intros L H. destruct (nth_error (s_elems st) j) as [e|] eqn:E; [|apply nth_error_None in E; lia].
  apply (live_set_list _ j) with e; [exact E|]. now rewrite <- (record_of_nth _ _ _ E).
Qed.
Lemma marks_live a b : marks a b -> live b <= live a.
Proof. induction 1 as [|st q j st' E _ IH]; [lia|]. pose proof (live_set st j). lia. Qed.

(** ** Steps of the loops *)
Definition Step (sc sc' : state * bool) : Prop :=
  marks (fst sc) (fst sc') /\ (sc' = sc \/ snd sc' = true /\ (snd sc = true \/ live (fst sc') < live (fst sc))).
Lemma Step_refl sc : Step sc sc. Proof. split; [constructor|auto]. Qed.
Lemma Step_trans a b c : Step a b -> Step b c -> Step a c.
Proof.
  intros [M1 H1] [M2 H2]. split; [eapply marks_trans; eauto|]. pose proof (marks_live _ _ M1). pose proof (marks_live _ _ M2).
  destruct H2 as [->|[F2 G2]]; [exact H1|]. destruct H1 as [->|[F1 G1]]; [right; split; [exact F2|exact G2]|].
  right. split; [exact F2|]. destruct G1; [auto|right; lia].
Qed.
Lemma Step_true sc sc' : Step sc sc' -> snd sc' = false -> sc' = sc.
Proof. intros [_ [->|[H _]]] E; [reflexivity|congruence]. Qed.

(** a loop whose passes are steps *)
Lemma ofold_step {X S} (f : X -> S -> outcome S) (g : S -> state * bool) (I : S -> Prop) l : forall s,
  I s -> (forall x s, In x l -> I s -> exists s', f x s = Ok s' /\ I s' /\ Step (g s) (g s')) ->
  exists s', ofold f l s = Ok s' /\ I s' /\ Step (g s) (g s').
Proof.
  induction l as [|x l IH]; intros s Hs H; cbn [ofold]; [exists s; split; [reflexivity|split; [exact Hs|apply Step_refl]]|].
  destruct (H x s (or_introl eq_refl) Hs) as (s1 & E1 & I1 & S1). rewrite E1. cbn [bind].
  destruct (IH s1 I1) as (s2 & E2 & I2 & S2); [intros y t Hy; apply H; now right|]. exists s2. split; [exact E2|]. split; [exact I2|].
  eapply Step_trans; eauto.
Qed.
(** if such a loop changes nothing, no pass changes anything *)
Lemma ofold_quiet (f : nat -> state * bool -> outcome (state * bool)) (I : state * bool -> Prop) l : forall s,
  I s -> (forall x s, In x l -> I s -> exists s', f x s = Ok s' /\ I s' /\ Step s s') ->
  ofold f l s = Ok s -> snd s = false -> forall x, In x l -> f x s = Ok s.
Proof.
  induction l as [|x l IH]; intros s Hs H E F y Hy; [destruct Hy|]. cbn [ofold] in E.
  destruct (H x s (or_introl eq_refl) Hs) as (s1 & E1 & I1 & S1). rewrite E1 in E. cbn [bind] in E.
  destruct (ofold_step f (fun s => s) I l s1 I1) as (s2 & E2 & I2 & S2); [intros z t Hz; apply H; now right|].
  rewrite E in E2. injection E2 as <-. pose proof (Step_true _ _ S2 F) as <-. clear S1 S2 I2.
  destruct Hy as [->|Hy]; [exact E1|]. apply IH; auto. intros z t Hz. apply H. now right.
Qed.

Lemma delete_children_marks qs : forall st, marks st (delete_children qs st).
Proof.
  induction qs as [|q qs IH]; intros st; cbn; [constructor|]. destruct (elem_at st q) as [j|] eqn:E; [|apply IH].
  eapply marks_step; [exact E|]. apply IH.
Qed.
Lemma delete_children_live n qs : forall st q, Cons n st -> In q qs -> exists_at st q = true -> live (delete_children qs st) < live st.
Proof.
  induction qs as [|q0 qs IH]; intros st q C Hq Hx; [destruct Hq|]. cbn [delete_children fold_left].
  change (live (delete_children qs (match elem_at st q0 with Some j => set_record j 2 st | None => st end)) < live st).
  apply exists_at_spec in Hx as (j & Hj & Hr). destruct Hq as [->|Hq].
  - rewrite Hj. pose proof (marks_live _ _ (delete_children_marks qs (set_record j 2 st))).
    pose proof (live_set_lt st j (elem_at_lt n st q j C Hj) Hr). lia.
  - destruct (elem_at st q0) as [j0|] eqn:E0; [|apply (IH st q C Hq); apply exists_at_spec; eauto].
    destruct (Nat.eq_dec j0 j) as [->|Hne].
    + pose proof (marks_live _ _ (delete_children_marks qs (set_record j 2 st))). pose proof (live_set_lt st j (elem_at_lt n st q j C Hj) Hr). lia.
    + pose proof (live_set st j0). assert (live (delete_children qs (set_record j0 2 st)) < live (set_record j0 2 st)); [|lia].
      apply (IH _ q); [apply Cons_set; auto|exact Hq|]. apply exists_at_spec. exists j. split; [now rewrite elem_at_set|].
      rewrite record_set. destruct (Nat.eqb_spec j0 j); [contradiction|exact Hr].
Qed.

Lemma some_there_in st nb : some_there st nb = true <-> exists q, In q nb /\ exists_at st q = true.
Proof. apply existsb_exists. Qed.
Lemma all_there_in st nb : all_there st nb = true <-> forall q, In q nb -> exists_at st q = true.
Proof. apply forallb_forall. Qed.

Lemma delete_children_step n nb st ch : Cons n st -> some_there st nb = true -> Step (st, ch) (delete_children nb st, true).
Proof.
  intros C H. apply some_there_in in H as (q & Hq & Hx). split; [apply delete_children_marks|]. right. split; [reflexivity|]. right.
  eapply delete_children_live; eauto.
Qed.

(** [i] has the node [p] *)
Definition On (n i : nat) (p : path) (sc : state * bool) : Prop := Cons n (fst sc) /\ elem_at (fst sc) p = Some i.
Lemma On_Step n i p sc sc' : Step sc sc' -> On n i p sc -> On n i p sc'.
Proof. intros [M _] [C E]. split; [eapply marks_Cons; eauto|]. rewrite (marks_elem_at _ _ _ M). exact E. Qed.

Lemma delete_diag_step n i p rl nb : forall sc, On n i p sc -> Step sc (delete_diag i rl nb sc).
Proof.
  induction nb as [|q nb IH]; intros [st ch] O; cbn [delete_diag fold_left]; [apply Step_refl|].
  change (Step (st, ch) (delete_diag i rl nb (if exists_at st q && (rl <=? level_at st q)
    then match elem_at st q with Some j => (if level_at st q =? rl then set_record i 2 (set_record j 2 st) else set_record j 2 st, true) | None => (st, ch) end
    else (st, ch)))).
  destruct (exists_at st q && (rl <=? level_at st q)) eqn:E; [|apply IH, O].
  apply andb_true_iff in E as [E _]. apply exists_at_spec in E as (j & Hj & Hr). rewrite Hj. destruct O as [C O]. cbn [fst] in *.
  assert (S1 : Step (st, ch) (if level_at st q =? rl then set_record i 2 (set_record j 2 st) else set_record j 2 st, true)).
  { pose proof (live_set_lt st j (elem_at_lt n st q j C Hj) Hr). pose proof (live_set (set_record j 2 st) i).
    destruct (level_at st q =? rl); (split; [|right; split; [reflexivity|right; cbn [fst]; lia]]).
    - eapply marks_step; [exact Hj|]. eapply marks_one with (q := p). now rewrite elem_at_set.
    - eapply marks_one; exact Hj. }
  eapply Step_trans; [exact S1|]. apply IH. eapply On_Step; [exact S1|]. split; assumption.
Qed.
Lemma delete_diag_quiet n i p rl nb : forall st, On n i p (st, false) -> delete_diag i rl nb (st, false) = (st, false) ->
  forall q, In q nb -> exists_at st q = true -> level_at st q < rl.
Proof.
  induction nb as [|q nb IH]; intros st O E q' Hq Hx; [destruct Hq|].
  set (s1 := (if exists_at st q && (rl <=? level_at st q)
    then match elem_at st q with Some j => (if level_at st q =? rl then set_record i 2 (set_record j 2 st) else set_record j 2 st, true) | None => (st, false) end
    else (st, false))).
  assert (Eq : delete_diag i rl (q :: nb) (st, false) = delete_diag i rl nb s1) by reflexivity. rewrite Eq in E.
  assert (S1 : Step (st, false) s1).
  { pose proof (delete_diag_step n i p rl [q] (st, false) O) as K. exact K. }
  pose proof (delete_diag_step n i p rl nb s1 (On_Step _ _ _ _ _ S1 O)) as S2. rewrite E in S2.
  pose proof (Step_true _ _ S2 eq_refl) as E1. rewrite <- E1 in E. destruct Hq as [->|Hq]; [|apply (IH st O E q' Hq Hx)].
  destruct (Nat.ltb_spec (level_at st q') rl) as [L|L]; [exact L|exfalso]. unfold s1 in E1. rewrite Hx in E1.
  destruct (Nat.leb_spec rl (level_at st q')); [|lia]. cbn [andb] in E1. apply exists_at_spec in Hx as (j & Hj & _). rewrite Hj in E1. congruence.
Qed.
