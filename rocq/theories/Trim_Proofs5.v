(** [deform]: spreading over hanging faces *)
From Coq Require Import ZArith List Bool Arith Lia Permutation.
From Verif Require Import Outcome Loop ListUtil Tree_Model Tree_Spec Tree_Proofs Tree_Neighbors Tree_Flood Tree_Thm Update_Model Update_Spec Update_Proofs1
  Update_Proofs2 Update_Proofs3 Update_Proofs4 Trim_Model Trim_Spec Trim_Proofs1 Trim_Proofs2 Trim_Proofs3 Trim_Proofs4.
Import ListNotations.
Local Open Scope nat_scope.

Lemma filter_le {A} (f g : A -> bool) l : (forall a, In a l -> f a = true -> g a = true) -> length (filter f l) <= length (filter g l).
Proof.
  induction l as [|a l IH]; intros H; cbn; [lia|]. assert (length (filter f l) <= length (filter g l)) by (apply IH; intros b Hb; apply H; now right).
  destruct (f a) eqn:E; [rewrite (H a (or_introl eq_refl) E); cbn; lia|]. destruct (g a); cbn; lia.
Qed.
Lemma filter_lt {A} (f g : A -> bool) l a : (forall a, In a l -> f a = true -> g a = true) -> In a l -> f a = false -> g a = true ->
  length (filter f l) < length (filter g l).
Proof.
  induction l as [|b l IH]; intros H Ha F G; [destruct Ha|]. destruct Ha as [->|Ha]; cbn.
  - rewrite F, G. cbn. apply Nat.lt_succ_r, filter_le. intros b Hb. apply H. now right.
  - assert (length (filter f l) < length (filter g l)) by (apply IH; auto; intros c Hc; apply H; now right).
    destruct (f b) eqn:E; [rewrite (H b (or_introl eq_refl) E); cbn; lia|]. destruct (g b); cbn; lia.
Qed.

Lemma filter_true {A} (l : list A) : filter (fun _ => true) l = l.
Proof. induction l; cbn; congruence. Qed.

Section spread.
Variables (n : nat) (st0 : state).
Hypothesis (C0 : Cons n st0) (K0 : Clean st0).
Hypothesis (X0 : forall p x q y d sign, occupied st0 p x -> occupied st0 q y -> d < n -> unit_sign sign -> share_face n d sign x y ->
  covered_face n st0 x d sign).

Definition cnt (st : state) : nat := length (filter (fun i => negb (is_def st i)) (seq 0 (length (s_elems st0)))).

Lemma is_def_mono st st' i : Same n st0 st -> Same n st0 st' -> (forall q, dd st q = true -> dd st' q = true) -> is_def st i = true -> is_def st' i = true.
Proof.
  intros S S' M D. destruct (nth_error (s_elems st0) i) as [e0|] eqn:E0.
  2:{ exfalso. apply nth_error_None in E0. rewrite <- (sm_length _ _ _ S) in E0. apply nth_error_None in E0. unfold is_def, def_of, record_of in D.
      rewrite E0 in D. discriminate. }
  destruct (sm_elem _ _ _ S i e0 E0) as (e & E & _ & D1 & _ & R1). destruct (sm_elem _ _ _ S' i e0 E0) as (e' & E' & _ & D2 & _ & R2).
  assert (N : (exists p, elem_at st0 p = Some i) -> is_def st' i = true).
  { intros (p & Hp). specialize (M p). unfold dd in M. rewrite (Same_elem_at n st0 st p S), (Same_elem_at n st0 st' p S'), Hp in M. auto. }
  destruct R1 as [R1|(R1 & _)]; [|auto]. destruct R2 as [R2|(R2 & _)]; [|auto]. unfold is_def, def_of in *.
  rewrite E, (record_of_nth _ _ _ E) in D. rewrite E', (record_of_nth _ _ _ E'). rewrite D1, R1 in D. rewrite D2, R2. exact D.
Qed.

Definition Closed (T : path -> Prop) : Prop := forall p x d sign q y r z, T p -> occupied st0 p x -> d < n -> unit_sign sign ->
  occupied st0 q y -> share_face n d sign x y -> T q -> occupied st0 r z -> share_face n d sign x z -> T r.

Record Sp (sc sc' : state * bool) : Prop := {
  sp_same : Same n st0 (fst sc');
  sp_mono : forall q, dd (fst sc) q = true -> dd (fst sc') q = true;
  sp_closed : forall T, Closed T -> (forall q, dd (fst sc) q = true -> T q) -> forall q, dd (fst sc') q = true -> T q;
  sp_change : sc' = sc \/ snd sc' = true /\ cnt (fst sc') < cnt (fst sc)
}.
Lemma Sp_refl sc : Same n st0 (fst sc) -> Sp sc sc.
Proof. intros S. split; auto. Qed.
Lemma Sp_trans a b c : Sp a b -> Sp b c -> Sp a c.
Proof.
  intros [A1 A2 A3 A4] [B1 B2 B3 B4]. split; auto.
  - intros T HT H. apply B3; [exact HT|]. apply A3; [exact HT|exact H].
  - destruct B4 as [->|[B4 B5]]; [exact A4|]. destruct A4 as [->|[A4 A5]]; right; split; auto; lia.
Qed.
Lemma Sp_fold {X} (f : X -> state * bool -> outcome (state * bool)) (I : state * bool -> Prop) l : forall sc,
  (forall a b, I a -> Sp a b -> I b) -> (forall x s, In x l -> Same n st0 (fst s) -> I s -> exists s', f x s = Ok s' /\ Sp s s') ->
  Same n st0 (fst sc) -> I sc -> exists sc', ofold f l sc = Ok sc' /\ Sp sc sc' /\ (snd sc' = false -> forall x, In x l -> f x sc = Ok sc).
Proof.
  induction l as [|x l IH]; intros sc HI H S Hs; cbn [ofold].
  - exists sc. split; [reflexivity|]. split; [apply Sp_refl, S|]. intros _ x [].
  - destruct (H x sc (or_introl eq_refl) S Hs) as (s1 & E1 & P1). rewrite E1. cbn [bind].
    destruct (IH s1 HI (fun y s Hy => H y s (or_intror Hy)) (sp_same _ _ P1) (HI _ _ Hs P1)) as (s2 & E2 & P2 & Q2).
    exists s2. split; [exact E2|]. split; [exact (Sp_trans _ _ _ P1 P2)|]. intros F.
    assert (s2 = s1) by (destruct (sp_change _ _ P2) as [K|[K _]]; [exact K|congruence]). subst s2.
    assert (s1 = sc) by (destruct (sp_change _ _ P1) as [K|[K _]]; [exact K|congruence]). subst s1.
    intros y [<-|Hy]; [exact E1|auto].
Qed.

Lemma make_all (l : list nat) : forall st, Same n st0 st -> (forall j, In j l -> exists q, elem_at st0 q = Some j /\ record_of st0 j <> 2%Z) ->
  let st' := fold_left (fun st j => make_def j st) l st in
  Same n st0 st' /\ forall q, dd st' q = true <-> dd st q = true \/ exists j, In j l /\ elem_at st0 q = Some j.
Proof.
  induction l as [|j l IH]; intros st S H; cbn [fold_left].
  - split; [exact S|]. intros q. split; [auto|]. intros [K|(j & [] & _)]; exact K.
  - destruct (H j (or_introl eq_refl)) as (q & Hq & Rq). destruct (make_def_Same n st0 C0 st q j S Hq Rq) as [S1 D1].
    destruct (IH _ S1 (fun i Hi => H i (or_intror Hi))) as [S2 D2]. split; [exact S2|]. intros r. rewrite D2, D1. split.
    + intros [K|(i & I1 & I2)]; [|right; exists i; split; [now right|exact I2]]. destruct (path_eqb_spec r q) as [Eq|]; [|auto].
      right. exists j. split; [now left|rewrite Eq; exact Hq].
    + intros [K|(i & [<-|I1] & I2)]; [left; now destruct (path_eqb r q)| |right; eauto]. left.
      assert (r = q) by (eapply (elem_at_inj n st0); eassumption). subst r. now rewrite path_eqb_refl.
Qed.

Lemma spread_face_ok p x f sc : Same n st0 (fst sc) -> occupied st0 p x -> dd (fst sc) p = true -> f < 2 * n ->
  exists sc', spread_face n p f sc = Ok sc' /\ Sp sc sc' /\
    (sc' = sc -> forall q y r z, occupied st0 q y -> share_face n (f / 2) (face_sign f) x y -> dd (fst sc) q = true ->
       occupied st0 r z -> share_face n (f / 2) (face_sign f) x z -> dd (fst sc) r = true).
Proof.
  destruct sc as [st ch]. cbn [fst]. intros S Ox Dp Hf. unfold spread_face. cbn [fst snd]. rewrite (sm_tree _ _ _ S).
  assert (Hd : f / 2 < n) by (apply Nat.div_lt_upper_bound; lia).
  destruct (face_nbs n st0 p x (f / 2) (face_sign f) C0 (proj1 Ox) Hd (unit_face f)) as (nb & E & H). rewrite face_of_back in E. rewrite E. cbn [bind].
  set (elems := flat_map (fun q => match elem_at st q with Some j => [j] | None => [] end) nb).
  assert (He : forall j, In j elems <-> exists q, In q nb /\ elem_at st0 q = Some j).
  { intros j. unfold elems. rewrite in_flat_map. split; intros (q & Q1 & Q2); exists q; (split; [exact Q1|]).
    - rewrite (Same_elem_at n st0 st q S) in Q2. destruct (elem_at st0 q); [|contradiction]. destruct Q2 as [->|[]]. reflexivity.
    - rewrite (Same_elem_at n st0 st q S), Q2. now left. }
  assert (Hdd : forall q j, elem_at st0 q = Some j -> dd st q = is_def st j) by (intros q j Q; unfold dd; now rewrite (Same_elem_at n st0 st q S), Q).
  destruct (existsb (is_def st) elems) eqn:B1; cbn [andb].
  - apply existsb_exists in B1 as (j & J1 & J2). apply He in J1 as (q & Q1 & Q2). apply H in Q1 as (y & Y1 & Y2).
    assert (Oy : occupied st0 q y) by (apply (exists_occupied n st0 q y C0 Y1), (is_def_exists n st0 C0 K0 st q j S Q2 J2)).
    pose proof (X0 p x q y (f / 2) (face_sign f) Ox Oy Hd (unit_face f) Y2) as Cv.
    assert (Hl : forall i, In i elems -> exists r z, elem_at st0 r = Some i /\ record_of st0 i <> 2%Z /\ occupied st0 r z /\ share_face n (f / 2) (face_sign f) x z).
    { intros i Hi. apply He in Hi as (r & R1 & R2). apply H in R1 as (z & Z1 & Z2). pose proof (Cv r z Z1 Z2) as Oz.
      destruct (occupied_elem n st0 r z C0 Oz) as (k & Hk & Rk). exists r, z. split; [exact R2|]. split; [congruence|auto]. }
    destruct (forallb (is_def st) elems) eqn:B2; cbn [negb].
    + exists (st, ch). split; [reflexivity|]. split; [apply Sp_refl, S|]. intros _ q' y' r z _ _ _ Oz Fz.
      destruct (occupied_elem n st0 r z C0 Oz) as (k & Hk & Rk). rewrite (Hdd r k Hk). rewrite forallb_forall in B2. apply B2, He. exists r. split; [|exact Hk].
      apply H. exists z. split; [apply Oz|exact Fz].
    + destruct (make_all elems st S) as [S1 D1]. { intros i Hi. destruct (Hl i Hi) as (r & z & R1 & R2 & _). eauto. }
      eexists. split; [reflexivity|]. split.
      * split; cbn [fst snd].
        -- exact S1.
        -- intros r Hr. apply D1. auto.
        -- intros T HT Hs r Hr. apply D1 in Hr as [Hr|(i & I1 & I2)]; [auto|]. destruct (Hl i I1) as (r' & z & R1 & R2 & R3 & R4).
           assert (r' = r) by (eapply (elem_at_inj n st0); eassumption). subst r'.
           apply (HT p x (f / 2) (face_sign f) q y r z); auto; [apply unit_face|]. apply Hs. now rewrite (Hdd q j Q2).
        -- right. split; [reflexivity|].
           assert (Hx : exists i, In i elems /\ is_def st i = false).
           { destruct (forallb (is_def st) elems) eqn:B3 in B2; [discriminate|]. clear B2.
             assert (existsb (fun i => negb (is_def st i)) elems = true).
             { clear - B3. induction elems as [|a l IH]; cbn in *; [discriminate|]. destruct (is_def st a); cbn in *; auto. }
             apply existsb_exists in H0 as (i & I1 & I2). exists i. split; [exact I1|]. now apply negb_true_iff. }
           destruct Hx as (i & I1 & I2). destruct (Hl i I1) as (r & z & R1 & _). unfold cnt. apply filter_lt with (a := i).
           ++ intros a _ Ha. apply negb_true_iff in Ha. apply negb_true_iff. destruct (is_def st a) eqn:Da; [|reflexivity].
              rewrite (is_def_mono st _ a S S1) in Ha; [discriminate| |exact Da]. intros b Hb. apply D1. auto.
           ++ apply in_seq. pose proof (elem_at_lt n st0 r i C0 R1). lia.
           ++ apply negb_false_iff. assert (K : dd (fold_left (fun st j => make_def j st) elems st) r = true) by (apply D1; right; eauto).
              unfold dd in K. rewrite (Same_elem_at n st0 _ r S1), R1 in K. exact K.
           ++ now rewrite I2.
      * intros Ec q' y' r z _ _ _ Oz Fz. injection Ec as Ec _. rewrite <- Ec. apply D1. right.
        destruct (occupied_elem n st0 r z C0 Oz) as (k & Hk & Rk). exists k. split; [|exact Hk]. apply He. exists r. split; [|exact Hk].
        apply H. exists z. split; [apply Oz|exact Fz].
  - exists (st, ch). split; [reflexivity|]. split; [apply Sp_refl, S|]. intros _ q y r z Oy Fy Dq _ _. exfalso.
    destruct (occupied_elem n st0 q y C0 Oy) as (k & Hk & Rk). rewrite (Hdd q k Hk) in Dq.
    assert (existsb (is_def st) elems = true); [|congruence]. apply existsb_exists. exists k. split; [|exact Dq]. apply He. exists q. split; [|exact Hk].
    apply H. exists y. split; [apply Oy|exact Fy].
Qed.

Lemma dd_occupied st p : Same n st0 st -> dd st p = true -> exists x, occupied st0 p x.
Proof.
  intros S D. apply (dd_exists n st0 C0 K0 st p S) in D as Xp. destruct (exists_leaf n st0 p C0 Xp) as (e & s & Ip).
  destruct (inf_subtree _ _ _ Ip) as (x & Hx & Ex). injection Ex as Lf _ _.
  assert (Lx : leaf_at (s_tree st0) p x) by (split; [exact Hx|apply is_leaf_true; congruence]).
  exists x. now apply (exists_occupied n st0 p x C0 Lx).
Qed.

Lemma spread_one_ok i sc : Same n st0 (fst sc) -> exists sc', spread_one n i sc = Ok sc' /\ Sp sc sc' /\
  (snd sc' = false -> forall p x d sign q y r z, elem_at st0 p = Some i -> dd (fst sc) p = true -> occupied st0 p x -> d < n -> unit_sign sign ->
     occupied st0 q y -> share_face n d sign x y -> dd (fst sc) q = true -> occupied st0 r z -> share_face n d sign x z -> dd (fst sc) r = true).
Proof.
  intros S. unfold spread_one. pose proof (Same_Cons n st0 C0 (fst sc) S) as C. destruct (tree_of (fst sc) i) as [p|] eqn:Et.
  2:{ exists sc. split; [reflexivity|]. split; [apply Sp_refl, S|]. intros _ p x d sign q y r z Hp. rewrite <- (Same_elem_at n st0 (fst sc) p S) in Hp.
      apply (tree_of_at n (fst sc) i p C) in Hp. congruence. }
  apply (tree_of_at n (fst sc) i p C) in Et. assert (Dp : dd (fst sc) p = is_def (fst sc) i) by (unfold dd; now rewrite Et).
  rewrite (Same_elem_at n st0 (fst sc) p S) in Et. destruct (is_def (fst sc) i) eqn:Di.
  - destruct (dd_occupied (fst sc) p S Dp) as (x & Ox).
    destruct (Sp_fold (spread_face n p) (fun s => dd (fst s) p = true) (seq 0 (2 * n)) sc) as (sc' & E & P & Q).
    + intros a b Ha Hab. apply (sp_mono _ _ Hab), Ha.
    + intros f s Hf Ss Ds. apply in_seq in Hf. destruct (spread_face_ok p x f s Ss Ox Ds ltac:(lia)) as (s' & E & P & _). eauto.
    + exact S.
    + exact Dp.
    + exists sc'. split; [exact E|]. split; [exact P|]. intros F p' x' d sign q y r z Hp' Dp' Ox' Hd Hs Oq Fq Dq Or Fr.
      assert (p' = p) by (eapply (elem_at_inj n st0); eassumption). subst p'. rewrite (leaf_unique st0 p x' x (proj1 Ox') (proj1 Ox)) in *.
      pose proof (face_of_lt n d sign Hd) as L. specialize (Q F (face_of d sign)). rewrite in_seq in Q. specialize (Q ltac:(lia)).
      destruct (spread_face_ok p x (face_of d sign) sc S Ox Dp L) as (s' & E' & _ & K). rewrite Q in E'. injection E' as <-.
      rewrite face_of_half, face_of_sign in K by exact Hs. eapply K; eauto.
  - exists sc. split; [reflexivity|]. split; [apply Sp_refl, S|]. intros _ p' x d sign q y r z Hp' Dp'.
    assert (p' = p) by (eapply (elem_at_inj n st0); eassumption). subst p'. congruence.
Qed.

Lemma spread_loop_ok order fuel : (forall k, Permutation (order k) (seq 0 (length (s_elems st0)))) -> forall st, Same n st0 st -> cnt st < fuel ->
  exists st', spread_loop fuel n order st = Ok st' /\ Same n st0 st' /\ (forall q, dd st q = true -> dd st' q = true) /\
    (forall T, Closed T -> (forall q, dd st q = true -> T q) -> forall q, dd st' q = true -> T q) /\ Closed (fun q => dd st' q = true).
Proof.
  intros Ho. induction fuel as [|fuel IH]; intros st S L; [lia|]. cbn [spread_loop].
  destruct (Sp_fold (spread_one n) (fun _ => True) (order fuel) (st, false)) as ([s1 ch] & E & P & Q); auto.
  { intros i s _ Ss _. destruct (spread_one_ok i s Ss) as (s' & E & P & _). eauto. }
  rewrite E. cbn [bind]. destruct P as [P1 P2 P3 P4]. cbn [fst snd] in *. destruct ch.
  - destruct P4 as [P4|[_ P4]]; [discriminate|]. destruct (IH s1 P1 ltac:(lia)) as (st' & E' & S' & M' & T' & C').
    exists st'. split; [exact E'|]. split; [exact S'|]. split; [auto|]. split; [|exact C']. intros T HT Hs. apply T'; [exact HT|]. apply P3; auto.
  - destruct P4 as [P4|[P4 _]]; [|discriminate]. injection P4 as ->. exists st. split; [reflexivity|]. split; [exact S|]. split; [auto|]. split; [auto|].
    intros p x d sign q y r z Dp Ox Hd Hs Oq Fq Dq Or Fr. destruct (occupied_elem n st0 p x C0 Ox) as (i & Hi & _).
    specialize (Q eq_refl i). assert (In i (order fuel)) as Hi' by (apply (Permutation_in i (Permutation_sym (Ho fuel))), in_seq; pose proof (elem_at_lt n st0 p i C0 Hi); lia).
    specialize (Q Hi'). destruct (spread_one_ok i (st, false) S) as (s' & E' & _ & K). rewrite Q in E'. injection E' as <-. eapply K; eauto.
Qed.
End spread.

(** ** the first three loops together *)
Lemma deform_marks n st0 ord1 ord2 order fuel : Cons n st0 -> Clean st0 ->
  (forall p x q y d sign, occupied st0 p x -> occupied st0 q y -> d < n -> unit_sign sign -> share_face n d sign x y -> covered_face n st0 x d sign) ->
  Permutation ord1 (seq 0 (length (s_elems st0))) -> Permutation ord2 (seq 0 (length (s_elems st0))) ->
  (forall k, Permutation (order k) (seq 0 (length (s_elems st0)))) -> length (s_elems st0) < fuel ->
  exists st, deform fuel n ord1 ord2 order st0 = toggle n st /\ Same n st0 st /\ forall q, dd st q = true <-> deformable n st0 q.
Proof.
  intros C0 K0 X0 P1 P2 P3 L. unfold deform. destruct (undeform_done n st0 C0 K0 ord1 P1) as [S1 D1]. cbv zeta in *.
  set (s1 := fold_left (fun st i => undeform_one i st) ord1 st0) in *. destruct (deform_loop n st0 C0 K0 X0 ord2 s1 S1) as (s2 & E2 & S2 & D2). rewrite E2. cbn [bind].
  destruct (spread_loop_ok n st0 C0 K0 X0 order fuel P3 s2 S2) as (s3 & E3 & S3 & M3 & T3 & C3).
  { eapply Nat.le_lt_trans; [|exact L]. unfold cnt. etransitivity; [apply (filter_le _ (fun _ => true)); auto|].
    rewrite filter_true, seq_length. lia. }
  rewrite E3. cbn [bind]. exists s3. split; [reflexivity|]. split; [exact S3|].
  assert (B : forall q, dd s2 q = true <-> exists p, near n st0 p q).
  { intros q. rewrite D2, D1. split.
    - intros [H|(p & i & _ & _ & H)]; [discriminate|eauto].
    - intros (p & H). right. destruct H as (x & d & sign & O & H). destruct (occupied_elem n st0 p x C0 O) as (i & Hi & _).
      exists p, i. split; [apply (Permutation_in i (Permutation_sym P2)), in_seq; pose proof (elem_at_lt n st0 p i C0 Hi); lia|]. split; [exact Hi|].
      exists x, d, sign. auto. }
  intros q. split.
  - revert q. apply T3; [intros p x d sign q y r z; intros; eapply (df_hanging n st0 p x d sign q y r z); eauto|]. intros q H.
    apply B in H as (p & x & d & sign & O & H1 & H2 & H3 & [->|(d' & sign' & y & H4 & H5 & H6 & H7 & H8)]); [eapply df_exposed; eauto|].
    eapply (df_side n st0 p x d sign d' sign' q y); eauto.
  - induction 1 as [p x d sign O H1 H2 H3|p x d sign d' sign' q y O H1 H2 H3 H4 H5 H6 H7 H8|p x d sign q y r z Hp IHp O H1 H2 O1 F1 Hq IHq O2 F2].
    + apply M3, B. exists p, x, d, sign. auto 10.
    + apply M3, B. exists p, x, d, sign. repeat split; auto; try apply O. right. exists d', sign', y. auto 10.
    + eapply (C3 p x d sign q y r z); eauto.
Qed.
