(** [refine_by_record] and the smoothing loop: effect on every node and element, balance at exit, termination. *)
From Coq Require Import ZArith List Bool Arith Lia.
From Verif Require Import Outcome Loop Tree_Model Tree_Spec Tree_Proofs Tree_Neighbors Tree_Flood Update_Model Update_Spec Update_Proofs1 Update_Proofs2.
Import ListNotations.
Local Open Scope nat_scope.

Definition Fil (st : state) : Prop := forall q e s, inf st q = Some (true, e, s) -> exists_at st q = true.
Definition NoSurf (st : state) : Prop := forall q lf e s, inf st q = Some (lf, e, s) -> s <> 0%Z.

Record finer (n : nat) (surf : path -> bool) (st st' : state) : Prop := mk_finer {
  f_cons : Cons n st';
  f_grows : grows st st';
  f_whole : Whole st -> Whole st';
  f_fil : Fil st -> Fil st';
  f_surf : (forall q, surf q = false) -> NoSurf st -> NoSurf st';
  f_rec : forall j, j < length (s_elems st) -> record_of st' j = record_of st j \/
            (record_of st j <> 2%Z /\ record_of st' j = 2%Z);
  f_new : forall j e, length (s_elems st) <= j -> nth_error (s_elems st') j = Some e -> e_record e = 0%Z \/ e_record e = 2%Z;
  f_node : forall q, inf st q <> None -> inf st' q <> None /\ elem_at st' q = elem_at st q;
  f_in : forall q e s, inf st q = Some (false, e, s) -> inf st' q = Some (false, e, s) }.

Lemma finer_refl n surf st : Cons n st -> finer n surf st st.
Proof.
  intros C. constructor; auto.
  - apply grows_refl.
  - intros j e L H. exfalso. assert (nth_error (s_elems st) j = None) by (apply nth_error_None; exact L). congruence.
Qed.

Lemma finer_trans n surf a b c : finer n surf a b -> finer n surf b c -> finer n surf a c.
Proof.
  intros F G. constructor.
  - apply (f_cons _ _ _ _ G).
  - eapply grows_trans; [apply (f_grows _ _ _ _ F)|apply (f_grows _ _ _ _ G)].
  - intros H. apply (f_whole _ _ _ _ G), (f_whole _ _ _ _ F), H.
  - intros H. apply (f_fil _ _ _ _ G), (f_fil _ _ _ _ F), H.
  - intros S0 H. apply (f_surf _ _ _ _ G S0), (f_surf _ _ _ _ F S0), H.
  - intros j L. pose proof (proj1 (f_grows _ _ _ _ F)) as L1.
    destruct (f_rec _ _ _ _ F j L) as [E1|(E1 & E2)]; destruct (f_rec _ _ _ _ G j ltac:(lia)) as [K1|(K1 & K2)].
    + left. congruence.
    + right. split; congruence.
    + right. split; congruence.
    + exfalso. congruence.
  - intros j e L H. destruct (Nat.lt_ge_cases j (length (s_elems b))) as [L1|L1].
    + destruct (nth_error (s_elems b) j) as [eb|] eqn:Eb; [|apply nth_error_None in Eb; lia].
      pose proof (f_new _ _ _ _ F j eb L Eb) as Hb. rewrite <- (record_of_nth _ _ _ H).
      destruct (f_rec _ _ _ _ G j L1) as [K|(K & K')]; [|now right]. rewrite K, (record_of_nth _ _ _ Eb). exact Hb.
    + apply (f_new _ _ _ _ G j e L1 H).
  - intros q Hq. destruct (f_node _ _ _ _ F q Hq) as [H1 H2]. destruct (f_node _ _ _ _ G q H1) as [H3 H4]. split; congruence.
  - intros q e s H. apply (f_in _ _ _ _ G), (f_in _ _ _ _ F), H.
Qed.

(** refinement of elements with record 1 only *)
Record strict (n : nat) (st st' : state) : Prop := mk_strict {
  st_rec : forall j, j < length (s_elems st) -> record_of st' j = record_of st j \/ (record_of st j = 1%Z /\ record_of st' j = 2%Z);
  st_new : forall j e, length (s_elems st) <= j -> nth_error (s_elems st') j = Some e -> e_record e = 0%Z;
  st_from : forall q, inf st' q <> None -> inf st q <> None \/
              exists p i, elem_at st p = Some i /\ record_of st i = 1%Z /\ is_child n p q = true;
  st_newnode : forall q i, inf st q = None -> elem_at st' q = Some i -> length (s_elems st) <= i }.

Lemma strict_refl n st : strict n st st.
Proof.
  constructor; auto.
  - intros j e L H. exfalso. assert (nth_error (s_elems st) j = None) by (apply nth_error_None; exact L). congruence.
  - intros q i H1 H2. rewrite elem_at_info, H1 in H2. discriminate.
Qed.

Lemma strict_trans n surf a b c : finer n surf a b -> finer n surf b c -> strict n a b -> strict n b c -> strict n a c.
Proof.
  intros F G S1 S2. pose proof (proj1 (f_grows _ _ _ _ F)) as L1. constructor.
  - intros j L. destruct (st_rec _ _ _ S1 j L) as [E1|(E1 & E2)]; destruct (st_rec _ _ _ S2 j ltac:(lia)) as [K1|(K1 & K2)].
    + left. congruence.
    + right. split; congruence.
    + right. split; congruence.
    + exfalso. congruence.
  - intros j e L H. destruct (Nat.lt_ge_cases j (length (s_elems b))) as [Lb|Lb].
    + destruct (nth_error (s_elems b) j) as [eb|] eqn:Eb; [|apply nth_error_None in Eb; lia].
      pose proof (st_new _ _ _ S1 j eb L Eb) as Hb. rewrite <- (record_of_nth _ _ _ H).
      destruct (st_rec _ _ _ S2 j Lb) as [K|(K & K')]; rewrite (record_of_nth _ _ _ Eb) in K; congruence.
    + apply (st_new _ _ _ S2 j e Lb H).
  - intros q Hq. destruct (st_from _ _ _ S2 q Hq) as [H|(p & i & H1 & H2 & H3)]; [apply (st_from _ _ _ S1 q H)|]. right.
    assert (L2 : i < length (s_elems b)) by (apply (elem_at_lt n b p i (f_cons _ _ _ _ F) H1)).
    assert (Li : i < length (s_elems a)).
    { destruct (Nat.lt_ge_cases i (length (s_elems a))) as [L|L]; [exact L|exfalso].
      destruct (nth_error (s_elems b) i) as [eb|] eqn:Eb; [|apply nth_error_None in Eb; lia].
      pose proof (st_new _ _ _ S1 i eb L Eb) as Hb. rewrite (record_of_nth _ _ _ Eb) in H2. lia. }
    exists p, i. split; [|split; [|exact H3]].
    + destruct (inf a p) as [v|] eqn:Ev.
      * destruct (f_node _ _ _ _ F p) as [_ E]; congruence.
      * pose proof (st_newnode _ _ _ S1 p i Ev H1). lia.
    + destruct (st_rec _ _ _ S1 i Li) as [K|[K K']]; congruence.
  - intros q i H1 H2. destruct (inf b q) as [v|] eqn:Ev.
    + destruct (f_node _ _ _ _ G q) as [_ E]; [congruence|]. rewrite H2 in E. apply (st_newnode _ _ _ S1 q i H1). congruence.
    + pose proof (st_newnode _ _ _ S2 q i Ev H2). lia.
Qed.

Lemma refined_finer n surf d i p s st st' : Cons n st -> inf st p = Some (true, Some (Z.of_nat i), s) -> record_of st i = 1%Z ->
  refined n surf d i p s st st' -> finer n surf st st'.
Proof.
  intros C Hp Hr D. pose proof D as (DC & DE & D1 & D2 & D3). constructor.
  - exact DC.
  - eapply ref_grows; eauto.
  - eapply ref_whole; eauto.
  - intros F q e0 s0 H. destruct (is_child n p q) eqn:Ec.
    + destruct (D2 q Ec) as (j & K1 & K2 & K3). apply exists_at_spec. exists j. rewrite elem_at_info, K1, Nat2Z.id. split; [reflexivity|].
      rewrite (record_of_nth _ _ _ K3). cbn. lia.
    + destruct (path_eqb_spec q p) as [->|Hne]; [congruence|]. rewrite D3 in H by assumption.
      specialize (F q e0 s0 H). apply exists_at_spec in F as (j & F1 & F2). apply exists_at_spec. exists j.
      rewrite (ref_elem_at n surf d i p s st st' Hp D q Ec). split; [exact F1|].
      rewrite (ref_record n surf d i p s st st' D) by (apply (elem_at_lt n st q j C F1)).
      destruct (Nat.eqb_spec i j) as [->|]; [|exact F2]. exfalso. apply Hne.
      destruct (elem_at_cons n st q j C F1) as (e1 & ? & ? & A1 & A2 & _).
      destruct (elem_at_cons n st p j C) as (e2 & ? & ? & B1 & B2 & _); [now rewrite elem_at_info, Hp, Nat2Z.id|]. congruence.
  - intros S0 N q lf e0 s0 H. destruct (path_eqb_spec q p) as [->|Hne].
    + rewrite D1 in H. injection H as _ _ <-. apply (N _ _ _ _ Hp).
    + destruct (is_child n p q) eqn:Ec.
      * destruct (D2 q Ec) as (j & K1 & _). rewrite K1 in H. injection H as _ _ <-. unfold surf_status. rewrite S0. lia.
      * rewrite D3 in H by assumption. apply (N _ _ _ _ H).
  - intros j L. rewrite (ref_record n surf d i p s st st' D) by exact L. destruct (Nat.eqb_spec i j) as [->|]; [right; split; [lia|reflexivity]|now left].
  - intros j e L H. left. apply (ref_new n surf d i p s st st' D j e L H).
  - intros q Hq. split; [eapply ref_inf_some; eauto|]. apply (ref_elem_at n surf d i p s st st' Hp D).
    destruct (is_child n p q) eqn:Ec; [|reflexivity]. now rewrite (ref_child_none n i p s st Hp q Ec) in Hq.
  - intros q e s0 H. rewrite D3; [exact H| |].
    + intros ->. congruence.
    + destruct (is_child n p q) eqn:Ec; [|reflexivity]. rewrite (ref_child_none n i p s st Hp q Ec) in H. discriminate.
Qed.

Lemma refined_strict n surf d i p s st st' : Cons n st -> inf st p = Some (true, Some (Z.of_nat i), s) -> record_of st i = 1%Z ->
  refined n surf d i p s st st' -> strict n st st'.
Proof.
  intros C Hp Hr D. pose proof D as (DC & DE & D1 & D2 & D3). constructor.
  - intros j L. rewrite (ref_record n surf d i p s st st' D) by exact L. destruct (Nat.eqb_spec i j) as [->|]; [right; auto|now left].
  - intros j e L H. apply (ref_new n surf d i p s st st' D j e L H).
  - intros q Hq. destruct (path_eqb_spec q p) as [->|Hne]; [left; congruence|]. destruct (is_child n p q) eqn:Ec.
    + right. exists p, i. split; [now rewrite elem_at_info, Hp, Nat2Z.id|auto].
    + left. now rewrite D3 in Hq.
  - intros q j H1 H2. destruct (is_child n p q) eqn:Ec.
    + destruct (D2 q Ec) as (j' & K1 & K2 & K3). rewrite elem_at_info, K1, Nat2Z.id in H2. injection H2 as <-. exact K2.
    + rewrite (ref_elem_at n surf d i p s st st' Hp D q Ec), elem_at_info, H1 in H2. discriminate.
Qed.

Lemma refine_list n surf d : forall l st, Cons n st ->
  exists st', ofold (refine_one n surf d) l st = Ok st' /\ finer n surf st st' /\ strict n st st' /\
    forall q i, elem_at st q = Some i -> In i l -> record_of st i = 1%Z ->
      record_of st' i = 2%Z /\ exists s, inf st' q = Some (false, Some (Z.of_nat i), s).
Proof.
  induction l as [|a l IH]; intros st C; cbn [ofold].
  - exists st. split; [reflexivity|]. split; [now apply finer_refl|]. split; [apply strict_refl|]. intros q i _ [].
  - destruct (tree_of st a) as [p|] eqn:Et; [destruct (Z.eqb_spec (record_of st a) 1) as [Er|Er]|].
    + pose proof (proj1 (tree_of_at n st a p C) Et) as Ea.
      destruct (refine_one_ok n surf d a p st C Ea Er) as (st1 & s & E1 & Hp & D). rewrite E1. cbn [bind].
      pose proof (refined_finer n surf d a p s st st1 C Hp Er D) as F1.
      pose proof (refined_strict n surf d a p s st st1 C Hp Er D) as S1.
      destruct (IH st1 (f_cons _ _ _ _ F1)) as (st2 & E2 & F2 & S2 & H2). exists st2. split; [exact E2|].
      split; [eapply finer_trans; eauto|]. split; [eapply strict_trans; eauto|]. intros q i Hq Hi Hr.
      destruct (Nat.eq_dec i a) as [->|Hne].
      * assert (q = p) as ->.
        { destruct (elem_at_cons n st q a C Hq) as (e1 & ? & ? & A1 & A2 & _).
          destruct (elem_at_cons n st p a C Ea) as (e2 & ? & ? & B1 & B2 & _). congruence. }
        split.
        -- assert (L : a < length (s_elems st)) by (apply (elem_at_lt n st p a C Ea)).
           assert (R1 : record_of st1 a = 2%Z) by (rewrite (ref_record n surf d a p s st st1 D) by exact L; now rewrite Nat.eqb_refl).
           assert (L1 : a < length (s_elems st1)) by (pose proof (proj1 (f_grows _ _ _ _ F1)); lia).
           destruct (f_rec _ _ _ _ F2 a L1) as [K|[K K']]; congruence.
        -- exists s. apply (f_in _ _ _ _ F2). apply D.
      * destruct Hi as [->|Hi]; [contradiction|].
        assert (Hn : inf st q <> None) by (intros K; rewrite elem_at_info, K in Hq; discriminate).
        destruct (f_node _ _ _ _ F1 q Hn) as [_ K2]. rewrite Hq in K2.
        apply (H2 q i K2 Hi). rewrite (ref_record n surf d a p s st st1 D) by (apply (elem_at_lt n st q i C Hq)).
        now destruct (Nat.eqb_spec a i); [congruence|].
    + assert (E1 : refine_one n surf d a st = Ok st).
      { unfold refine_one. rewrite Et. now destruct (Z.eqb_spec (record_of st a) 1). }
      rewrite E1. cbn [bind]. destruct (IH st C) as (st' & E & F & S0 & H). exists st'. split; [exact E|]. split; [exact F|]. split; [exact S0|].
      intros q i Hq [->|Hi] Hr; [contradiction|]. eauto.
    + assert (E1 : refine_one n surf d a st = Ok st) by (unfold refine_one; now rewrite Et).
      rewrite E1. cbn [bind]. destruct (IH st C) as (st' & E & F & S0 & H). exists st'. split; [exact E|]. split; [exact F|]. split; [exact S0|].
      intros q i Hq [->|Hi] Hr; [|eauto]. apply (tree_of_at n st i q C) in Hq. congruence.
Qed.

Lemma container_in st d i : In i (container st d) <-> exists e, nth_error (s_elems st) i = Some e /\ e_def e = d.
Proof.
  unfold container. rewrite filter_In, in_seq. split.
  - intros [_ H]. destruct (nth_error (s_elems st) i) as [e|]; [|discriminate]. exists e. split; [reflexivity|].
    now apply Bool.eqb_prop.
  - intros (e & H & <-). assert (i < length (s_elems st)) by (apply nth_error_Some; congruence). rewrite H. split; [lia|].
    now destruct (e_def e).
Qed.

(** both containers: every paired element with record 1 is refined *)
Lemma refine_both n surf st : Cons n st ->
  exists st', (let! st := refine_by_record n surf false st in refine_by_record n surf true st) = Ok st' /\ finer n surf st st' /\ strict n st st' /\
    forall q i, elem_at st q = Some i -> record_of st i = 1%Z ->
      record_of st' i = 2%Z /\ exists s, inf st' q = Some (false, Some (Z.of_nat i), s).
Proof.
  intros C. unfold refine_by_record. destruct (refine_list n surf false (container st false) st C) as (st1 & E1 & F1 & S1 & H1).
  rewrite E1. cbn [bind]. destruct (refine_list n surf true (container st1 true) st1 (f_cons _ _ _ _ F1)) as (st2 & E2 & F2 & S2 & H2).
  exists st2. split; [exact E2|]. split; [eapply finer_trans; eauto|]. split; [eapply strict_trans; eauto|]. intros q i Hq Hr.
  destruct (elem_at_cons n st q i C Hq) as (e & lf & s & K1 & K2 & K3 & _).
  assert (Hn : inf st q <> None) by (intros K; rewrite K in K3; discriminate).
  destruct (f_node _ _ _ _ F1 q Hn) as [_ N1]. rewrite Hq in N1.
  destruct (proj2 (f_grows _ _ _ _ F1) i e K1) as (e1 & G1 & G2 & G3 & _).
  assert (L1 : i < length (s_elems st1)) by (apply nth_error_Some; congruence).
  destruct (e_def e) eqn:Ed.
  - destruct (f_rec _ _ _ _ F1 i) as [R1|[_ R1]]; [apply nth_error_Some; congruence| |].
    + apply (H2 q i N1); [|congruence]. apply container_in. exists e1. auto.
    + (* cannot have been refined by the first loop, but whatever *)
      exfalso. assert (X : forall l s, ofold (refine_one n surf false) l st = Ok s -> ~ In i l -> Cons n st -> record_of s i = record_of st i).
      { clear - Hq. intros l. revert st Hq. induction l as [|a l IH]; intros st Hq s H Hi C; cbn [ofold] in H; [injection H as <-; reflexivity|].
        assert (Li : i < length (s_elems st)) by (apply (elem_at_lt n st q i C Hq)).
        destruct (tree_of st a) as [p|] eqn:Et; [destruct (Z.eqb_spec (record_of st a) 1) as [Er|Er]|].
        - pose proof (proj1 (tree_of_at n st a p C) Et) as Ea.
          destruct (refine_one_ok n surf false a p st C Ea Er) as (st1 & s1 & E1 & Hp & D). rewrite E1 in H. cbn [bind] in H.
          pose proof (refined_finer n surf false a p s1 st st1 C Hp Er D) as F1.
          assert (Hn : inf st q <> None) by (intros K; rewrite elem_at_info, K in Hq; discriminate).
          destruct (f_node _ _ _ _ F1 q Hn) as [_ K2]. rewrite Hq in K2.
          rewrite (IH st1 K2 s H); [|intros K; apply Hi; now right|apply (f_cons _ _ _ _ F1)].
          rewrite (ref_record n surf false a p s1 st st1 D) by exact Li. destruct (Nat.eqb_spec a i) as [->|]; [|reflexivity].
          exfalso. apply Hi. now left.
        - replace (refine_one n surf false a st) with (Ok st) in H.
          + cbn [bind] in H. apply (IH st Hq s H); [intros K; apply Hi; now right|exact C].
          + unfold refine_one. rewrite Et. now destruct (Z.eqb_spec (record_of st a) 1).
        - replace (refine_one n surf false a st) with (Ok st) in H.
          + cbn [bind] in H. apply (IH st Hq s H); [intros K; apply Hi; now right|exact C].
          + unfold refine_one. now rewrite Et. }
      rewrite (X _ _ E1) in R1; [congruence| |exact C]. intros K. apply container_in in K as (e' & P1 & P2). congruence.
  - destruct (H1 q i Hq) as [R1 [s1 Sx]]; [apply container_in; eauto|exact Hr|].
    split; [|exists s1; apply (f_in _ _ _ _ F2), Sx]. destruct (f_rec _ _ _ _ F2 i L1) as [K|[K K']]; congruence.
Qed.
