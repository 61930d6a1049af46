(** The smoothing loop: balance at exit, what it changes, termination. *)
From Coq Require Import ZArith QArith List Bool Arith Lia.
From Verif Require Import Outcome Loop Tree_Model Tree_Spec Tree_Proofs Tree_Neighbors Tree_Flood Update_Model Update_Spec
  Update_Proofs1 Update_Proofs2 Update_Proofs3.
Import ListNotations.
Local Open Scope nat_scope.

(** no paired element waits for refinement *)
Definition No1 (st : state) : Prop := forall p i, elem_at st p = Some i -> record_of st i <> 1%Z.

Lemma any_too_fine_ext n a b p rl dirs : s_tree a = s_tree b -> (forall q, exists_at a q = exists_at b q) ->
  any_too_fine n a p rl dirs = any_too_fine n b p rl dirs.
Proof.
  intros E X. induction dirs as [|d dirs IH]; cbn [any_too_fine]; [reflexivity|]. rewrite E.
  destruct (find_neighbors n (s_tree b) p d) as [l| | |]; cbn [bind]; try reflexivity.
  assert (H : forall q, too_fine a rl q = too_fine b rl q) by (intros q; unfold too_fine, level_at; now rewrite X, E).
  replace (existsb (too_fine a rl) l) with (existsb (too_fine b rl) l); [now rewrite IH|].
  clear IH. induction l as [|q l IHl]; cbn [existsb]; [reflexivity|]. now rewrite H, IHl.
Qed.
Lemma needs_refine_ext n a b p : s_tree a = s_tree b -> (forall q, exists_at a q = exists_at b q) -> needs_refine n a p = needs_refine n b p.
Proof.
  intros E X. unfold needs_refine. rewrite E. destruct (subtree (s_tree b) p) as [x|]; cbn [of_option_ub bind]; [|reflexivity].
  now apply any_too_fine_ext.
Qed.

Record marked (n : nat) (st st' : state) : Prop := mk_marked {
  m_tree : s_tree st' = s_tree st;
  m_len : length (s_elems st') = length (s_elems st);
  m_exists : forall q, exists_at st' q = exists_at st q;
  m_nth : forall j e, nth_error (s_elems st) j = Some e ->
     nth_error (s_elems st') j = Some e \/
     (nth_error (s_elems st') j = Some (put_record 1 e) /\ e_record e <> 2%Z /\ exists p, elem_at st p = Some j /\ needs_refine n st p = Ok true) }.

Lemma exists_at_set1 st i q : record_of st i <> 2%Z -> exists_at (set_record i 1 st) q = exists_at st q.
Proof.
  intros H. unfold exists_at. rewrite elem_at_set. destruct (elem_at st q) as [j|]; [|reflexivity]. rewrite record_set.
  destruct (Nat.eqb_spec i j) as [->|]; cbn [andb]; [|reflexivity]. destruct (j <? length (s_elems st)); [|reflexivity].
  apply Z.eqb_neq in H. rewrite H. reflexivity.
Qed.

Lemma put_put r r' e : put_record r (put_record r' e) = put_record r e. Proof. reflexivity. Qed.

Lemma elem_at_tree a b q : s_tree a = s_tree b -> elem_at a q = elem_at b q.
Proof. intros E. unfold elem_at. now rewrite E. Qed.
Lemma inf_tree a b q : s_tree a = s_tree b -> inf a q = inf b q.
Proof. intros E. unfold inf. now rewrite E. Qed.

Lemma mark_list n : forall l st, Cons n st -> forall ch,
  exists st' ch', ofold (mark_one n) l (st, ch) = Ok (st', ch') /\ Cons n st' /\ marked n st st' /\
    (ch' = false -> ch = false /\ st' = st /\ forall i p, In i l -> elem_at st p = Some i -> record_of st i <> 2%Z -> needs_refine n st p = Ok false) /\
    (ch' = true -> ch = true \/ exists i p, elem_at st p = Some i /\ record_of st i <> 2%Z /\ needs_refine n st p = Ok true /\ record_of st' i = 1%Z).
Proof.
  induction l as [|i l IH]; intros st C ch; cbn [ofold].
  - exists st, ch. split; [reflexivity|]. split; [exact C|]. split; [|split].
    + constructor; auto.
    + intros ->. repeat split. intros ? ? [].
    + auto.
  - cbn [mark_one]. destruct (tree_of st i) as [p|] eqn:Et.
    + apply (tree_of_at n st i p C) in Et. destruct (Z.eqb_spec (record_of st i) 2) as [Er|Er].
      * cbn [bind]. destruct (IH st C ch) as (st' & ch' & E & C' & M & H0 & H1). exists st', ch'. split; [exact E|]. split; [exact C'|]. split; [exact M|].
        split; [|exact H1]. intros Hc. destruct (H0 Hc) as (P1 & P2 & P3). repeat split; try assumption.
        intros i0 p0 [->|Hi] Q1 Q2; [contradiction|]. now apply (P3 i0).
      * destruct (elem_at_cons n st p i C Et) as (e & lf & s & K1 & K2 & K3 & K4).
        destruct (inf_subtree _ _ _ K3) as (x & Hx & _).
        destruct (needs_refine_ok n st p x (proj1 C) Hx) as (b & Eb & _). rewrite Eb. cbn [bind]. destruct b.
        -- set (st1 := set_record i 1 st).
           assert (C1 : Cons n st1) by (apply Cons_set; [exact C|now right]).
           assert (X1 : forall q, exists_at st1 q = exists_at st q) by (intros q; apply exists_at_set1; exact Er).
           assert (Li : i < length (s_elems st)) by (apply nth_error_Some; congruence).
           destruct (IH st1 C1 true) as (st' & ch' & E & C' & M & H0 & H1). exists st', ch'. split; [exact E|]. split; [exact C'|].
           destruct M as [M1 M2 M3 M4]. split; [|split].
           ++ constructor.
              ** rewrite M1. reflexivity.
              ** rewrite M2. apply length_set.
              ** intros q. now rewrite M3, X1.
              ** intros j e' H. destruct (Nat.eq_dec i j) as [->|Hne].
                 --- right. assert (e' = e) by congruence. subst e'. split; [|split; [now rewrite <- (record_of_nth _ _ _ K1)|eauto]].
                     destruct (M4 j (put_record 1 e)) as [K|(K & _)]; [unfold st1; rewrite nth_set, Nat.eqb_refl, K1; reflexivity|exact K|].
                     rewrite put_put in K. exact K.
                 --- assert (H' : nth_error (s_elems st1) j = Some e') by (unfold st1; rewrite nth_set; now destruct (Nat.eqb_spec i j)).
                     destruct (M4 j e' H') as [K|(K & Kr & p' & Ka & Kb)]; [now left|right]. split; [exact K|]. split; [exact Kr|].
                     exists p'. split; [exact Ka|]. rewrite <- Kb. symmetry. apply needs_refine_ext; [reflexivity|exact X1].
           ++ intros ->. destruct (H0 eq_refl) as [K _]. discriminate.
           ++ intros _. right. exists i, p. repeat split; try assumption.
              destruct (M4 i (put_record 1 e)) as [K|(K & _)]; [unfold st1; rewrite nth_set, Nat.eqb_refl, K1; reflexivity| |];
                rewrite (record_of_nth _ _ _ K); reflexivity.
        -- destruct (IH st C ch) as (st' & ch' & E & C' & M & H0 & H1). exists st', ch'. split; [exact E|]. split; [exact C'|]. split; [exact M|].
           split; [|exact H1]. intros Hc. destruct (H0 Hc) as (P1 & P2 & P3). repeat split; try assumption.
           intros i0 p0 [->|Hi] Q1 Q2; [|now apply (P3 i0)].
           replace p0 with p; [exact Eb|]. destruct (elem_at_cons n st p0 i0 C Q1) as (e2 & ? & ? & B1 & B2 & _). congruence.
    + cbn [bind]. destruct (IH st C ch) as (st' & ch' & E & C' & M & H0 & H1). exists st', ch'. split; [exact E|]. split; [exact C'|]. split; [exact M|].
      split; [|exact H1]. intros Hc. destruct (H0 Hc) as (P1 & P2 & P3). repeat split; try assumption.
      intros i0 p0 [->|Hi] Q1 Q2; [|now apply (P3 i0)]. apply (tree_of_at n st i0 p0 C) in Q1. congruence.
Qed.

Lemma marked_record n st st' j : marked n st st' -> record_of st' j = record_of st j \/ (record_of st' j = 1%Z /\ record_of st j <> 2%Z).
Proof.
  intros M. unfold record_of. destruct (nth_error (s_elems st) j) as [e|] eqn:E.
  - destruct (m_nth _ _ _ M j e E) as [K|(K & Kr & _)]; rewrite K; [now left|right]. auto.
  - left. apply nth_error_None in E. rewrite <- (m_len _ _ _ M) in E. apply nth_error_None in E. now rewrite E.
Qed.

Lemma refined_no1 n surf st st' : Cons n st -> finer n surf st st' -> strict n st st' ->
  (forall q i, elem_at st q = Some i -> record_of st i = 1%Z -> record_of st' i = 2%Z /\ exists s, inf st' q = Some (false, Some (Z.of_nat i), s)) ->
  No1 st'.
Proof.
  intros C F S1 H p i Hp Hr. pose proof (elem_at_lt n st' p i (f_cons _ _ _ _ F) Hp) as L.
  destruct (Nat.lt_ge_cases i (length (s_elems st))) as [Li|Li].
  - destruct (inf st p) as [v|] eqn:Ev; [|pose proof (st_newnode _ _ _ S1 p i Ev Hp); lia].
    destruct (f_node _ _ _ _ F p) as [_ E]; [congruence|]. rewrite Hp in E.
    destruct (st_rec _ _ _ S1 i Li) as [K|[K K']]; [|congruence]. destruct (H p i (eq_sym E)) as [K' _]; congruence.
  - destruct (nth_error (s_elems st') i) as [e|] eqn:Ee; [|apply nth_error_None in Ee; lia].
    pose proof (st_new _ _ _ S1 i e Li Ee). rewrite (record_of_nth _ _ _ Ee) in Hr. lia.
Qed.

Lemma marked_finer n surf st st1 st2 : Cons n st -> Cons n st1 -> marked n st st1 -> finer n surf st1 st2 -> strict n st1 st2 ->
  (forall q i, elem_at st1 q = Some i -> record_of st1 i = 1%Z -> record_of st2 i = 2%Z /\ exists s, inf st2 q = Some (false, Some (Z.of_nat i), s)) ->
  finer n surf st st2 /\ No1 st2.
Proof.
  intros C C1 M F S1 H.
  assert (IT : forall q, inf st1 q = inf st q) by (intros q; apply inf_tree, (m_tree _ _ _ M)).
  assert (ET : forall q, elem_at st1 q = elem_at st q) by (intros q; apply elem_at_tree, (m_tree _ _ _ M)).
  split.
  - constructor.
    + apply (f_cons _ _ _ _ F).
    + split; [rewrite <- (m_len _ _ _ M); apply (f_grows _ _ _ _ F)|]. intros j e Hj.
      destruct (m_nth _ _ _ M j e Hj) as [K|(K & Kr & _)]; destruct (proj2 (f_grows _ _ _ _ F) j _ K) as (e' & G1 & G2 & G3 & G4 & G5); exists e';
        repeat split; try assumption. intros K'. contradiction.
    + intros W. apply (f_whole _ _ _ _ F). intros j e p Hj Hp Hr. rewrite ET.
      destruct (nth_error (s_elems st) j) as [e0|] eqn:E0.
      * destruct (m_nth _ _ _ M j e0 E0) as [K|(K & Kr & _)]; assert (X := eq_trans (eq_sym K) Hj); injection X as <-; apply (W j e0 p E0); assumption.
      * exfalso. apply nth_error_None in E0. rewrite <- (m_len _ _ _ M) in E0. apply nth_error_None in E0. congruence.
    + intros Fi. apply (f_fil _ _ _ _ F). intros q e s Hq. rewrite IT in Hq. rewrite (m_exists _ _ _ M). eapply Fi; eauto.
    + intros S0 NS. apply (f_surf _ _ _ _ F S0). intros q lf e s Hq. rewrite IT in Hq. eapply NS; eauto.
    + intros j L. destruct (nth_error (s_elems st) j) as [e|] eqn:E; [|apply nth_error_None in E; lia].
      destruct (m_nth _ _ _ M j e E) as [Q|(Q & Qr & p & Qp & Qn)].
      * replace (record_of st j) with (record_of st1 j) by (rewrite (record_of_nth _ _ _ Q), (record_of_nth _ _ _ E); reflexivity).
        apply (f_rec _ _ _ _ F). rewrite (m_len _ _ _ M). exact L.
      * right. split; [now rewrite (record_of_nth _ _ _ E)|]. apply (H p j); [now rewrite ET|].
        rewrite (record_of_nth _ _ _ Q). reflexivity.
    + intros j e L. rewrite <- (m_len _ _ _ M) in L. apply (f_new _ _ _ _ F j e L).
    + intros q Hq. rewrite <- IT in Hq. rewrite <- ET. apply (f_node _ _ _ _ F q Hq).
    + intros q e s Hq. rewrite <- IT in Hq. apply (f_in _ _ _ _ F q e s Hq).
  - apply (refined_no1 n surf st1 st2 C1 F S1 H).
Qed.

(** one iteration *)
Lemma smooth_iter n surf st : Cons n st -> No1 st ->
  exists st1 ch st2,
    ofold (mark_one n) (container st false ++ container st true) (st, false) = Ok (st1, ch) /\
    (let! st := refine_by_record n surf false st1 in refine_by_record n surf true st) = Ok st2 /\
    finer n surf st st2 /\ No1 st2 /\
    (ch = false -> forall i p, elem_at st2 p = Some i -> record_of st2 i <> 2%Z -> needs_refine n st2 p = Ok false) /\
    (forall q, inf st2 q <> None -> inf st q <> None \/ exists p, is_child n p q = true /\ exists_at st p = true /\ needs_refine n st p = Ok true) /\
    (ch = true -> exists p, exists_at st p = true /\ needs_refine n st p = Ok true /\ exists v, inf st2 p = Some (false, fst v, snd v)).
Proof.
  intros C N. destruct (mark_list n (container st false ++ container st true) st C false) as (st1 & ch & E1 & C1 & M & H0 & H1).
  destruct (refine_both n surf st1 C1) as (st2 & E2 & F & S1 & H2). exists st1, ch, st2. split; [exact E1|]. split; [exact E2|].
  destruct (marked_finer n surf st st1 st2 C C1 M F S1 H2) as [F2 N2]. split; [exact F2|]. split; [exact N2|].
  assert (IT : forall q, inf st1 q = inf st q) by (intros q; apply inf_tree, (m_tree _ _ _ M)).
  assert (ET : forall q, elem_at st1 q = elem_at st q) by (intros q; apply elem_at_tree, (m_tree _ _ _ M)).
  assert (All : forall i, i < length (s_elems st) -> In i (container st false ++ container st true)).
  { intros i L. apply in_or_app. destruct (nth_error (s_elems st) i) as [e|] eqn:E; [|apply nth_error_None in E; lia].
    destruct (e_def e) eqn:Ed; [right|left]; apply container_in; eauto. }
  assert (From : forall q, inf st2 q <> None -> inf st q <> None \/ exists p, is_child n p q = true /\ exists_at st p = true /\ needs_refine n st p = Ok true).
  { intros q Hq. destruct (st_from _ _ _ S1 q Hq) as [K|(p & i & K1 & K2 & K3)]; [left; now rewrite IT in K|right]. exists p. split; [exact K3|].
    rewrite ET in K1. destruct (elem_at_cons n st p i C K1) as (e & lf & s & Q1 & Q2 & _ & _).
    destruct (m_nth _ _ _ M i e Q1) as [Q|(Q & Qr & p' & Qp & Qn)].
    - exfalso. apply (N p i K1). rewrite (record_of_nth _ _ _ Q) in K2. now rewrite (record_of_nth _ _ _ Q1).
    - split; [apply exists_at_spec; exists i; split; [exact K1|now rewrite (record_of_nth _ _ _ Q1)]|].
      replace p with p'; [exact Qn|]. destruct (elem_at_cons n st p' i C Qp) as (e2 & ? & ? & B1 & B2 & _). congruence. }
  split; [|split; [exact From|]].
  - intros Hc. destruct (H0 Hc) as (_ & -> & H3).
    (* nothing to refine: the state stays *)
    assert (St : st2 = st).
    { assert (X : forall d l, ofold (refine_one n surf d) l st = Ok st).
      { intros d. induction l as [|a l IH]; cbn [ofold]; [reflexivity|].
        assert (K : refine_one n surf d a st = Ok st).
        { unfold refine_one. destruct (tree_of st a) as [p|] eqn:Et; [|reflexivity]. apply (tree_of_at n st a p C) in Et.
          pose proof (N p a Et). now destruct (Z.eqb_spec (record_of st a) 1). }
        rewrite K. exact IH. }
      unfold refine_by_record in E2. rewrite X in E2. cbn [bind] in E2. rewrite X in E2. congruence. }
    subst st2. intros i p Hp Hr. apply (H3 i p); try assumption. apply All, (elem_at_lt n st p i C Hp).
  - intros Hc. destruct (H1 Hc) as [K|(i & p & K1 & K2 & K3 & K4)]; [discriminate|]. exists p.
    split; [apply exists_at_spec; eauto|]. split; [exact K3|].
    destruct (H2 p i) as [_ [s Hs]]; [now rewrite ET|exact K4|]. exists (Some (Z.of_nat i), s). exact Hs.
Qed.

(** ** balance *)
Lemma needs_false_spec n st p x : reachable n (s_tree st) -> subtree (s_tree st) p = Some x -> needs_refine n st p = Ok false ->
  forall d q y, In d (needs_dirs n (match t_elem x with Some _ => true | None => false end)) -> leaf_at (s_tree st) q y -> touches n d x y ->
    exists_at st q = true -> t_level y <= t_level x + 1.
Proof.
  intros R Hx H d q y Hd Hq Ht He. destruct (needs_refine_ok n st p x R Hx) as (b & Eb & Hb). assert (b = false) by congruence. subst b.
  destruct (Nat.le_gt_cases (t_level y) (t_level x + 1)) as [L|L]; [exact L|exfalso].
  assert (false = true); [|discriminate]. apply Hb. exists d, q, y. split; [exact Hd|]. split; [exact Hq|]. split; [exact Ht|]. split; [exact He|exact L].
Qed.

Lemma face_dirs_in n b d sign : d < n -> sign = 1%Z \/ sign = (-1)%Z -> In (direct n d sign) (needs_dirs n b).
Proof.
  intros Hd Hs. unfold needs_dirs. apply in_flat_map. destruct Hs as [-> | ->].
  - exists (2 * d + 1). split; [apply in_seq; lia|]. left. unfold face_dir, face_sign.
    replace ((2 * d + 1) / 2) with d by (rewrite Nat.mul_comm, Nat.div_add_l by lia; cbn; lia).
    replace ((2 * d + 1) mod 2) with 1; [reflexivity|]. rewrite Nat.add_comm, Nat.mul_comm, Nat.mod_add by lia. reflexivity.
  - exists (2 * d). split; [apply in_seq; lia|]. left. unfold face_dir, face_sign.
    replace (2 * d / 2) with d by (rewrite Nat.mul_comm, Nat.div_mul by lia; reflexivity).
    replace ((2 * d) mod 2) with 0; [reflexivity|]. rewrite Nat.mul_comm, Nat.mod_mul by lia. reflexivity.
Qed.

Lemma edge_dirs_in n dir : edge_direction n dir -> In dir (needs_dirs n true).
Proof.
  intros (L & a & b & Hab & Hb & Ha1 & Hb1 & Hz). unfold needs_dirs. apply in_flat_map.
  set (fb := 2 * b + (if (nth b dir 0 =? 1)%Z then 1 else 0)). set (fa := 2 * a + (if (nth a dir 0 =? 1)%Z then 1 else 0)).
  assert (Db : fb / 2 = b).
  { unfold fb. rewrite (Nat.mul_comm 2 b), Nat.div_add_l by lia. destruct (nth b dir 0 =? 1)%Z; apply Nat.add_0_r. }
  assert (Da : fa / 2 = a).
  { unfold fa. rewrite (Nat.mul_comm 2 a), Nat.div_add_l by lia. destruct (nth a dir 0 =? 1)%Z; apply Nat.add_0_r. }
  assert (Sb : face_sign fb = nth b dir 0%Z).
  { unfold face_sign, fb. rewrite Nat.add_comm, Nat.mul_comm, Nat.mod_add by lia. destruct Hb1 as [-> | ->]; reflexivity. }
  assert (Sa : face_sign fa = nth a dir 0%Z).
  { unfold face_sign, fa. rewrite Nat.add_comm, Nat.mul_comm, Nat.mod_add by lia. destruct Ha1 as [-> | ->]; reflexivity. }
  assert (Lb : fb < 2 * n) by (unfold fb; destruct (nth b dir 0 =? 1)%Z; lia).
  assert (La : fa < 2 * b) by (unfold fa; destruct (nth a dir 0 =? 1)%Z; lia).
  exists fb. split; [apply in_seq; lia|]. right. apply in_map_iff. exists fa. split; [|apply in_seq; rewrite Db; lia].
  apply (nth_ext _ _ 0%Z 0%Z); [rewrite diag_dir_length; congruence|]. rewrite diag_dir_length. intros k Hk.
  unfold diag_dir. rewrite (nth_map_seq n (fun k => if k =? fa / 2 then face_sign fa else nth k (face_dir n fb) 0%Z)) by exact Hk.
  rewrite Da, Sa. destruct (Nat.eqb_spec k a) as [->|Hka]; [reflexivity|]. unfold face_dir. rewrite nth_direct by exact Hk.
  rewrite Db, Sb. destruct (Nat.eqb_spec k b) as [->|Hkb]; [reflexivity|]. symmetry. auto.
Qed.

Lemma share_face_sym n d sign x y : sign = 1%Z \/ sign = (-1)%Z -> share_face n d sign x y -> share_face n d (- sign) y x.
Proof.
  intros [-> | ->] [H1 H2]; (split; [cbn in *; symmetry; exact H1|]); intros i Hi Hne; destruct (H2 i Hi Hne); split; assumption.
Qed.

Lemma needs_balanced n st : Cons n st -> (forall i p, elem_at st p = Some i -> record_of st i <> 2%Z -> needs_refine n st p = Ok false) -> balanced n st.
Proof.
  intros C H p x q y [Hx [i Hi]] [Hy [j Hj]]. pose proof C as [R _]. destruct (reachable_wf n _ R) as (W & _).
  pose proof (proj1 (lives_at n st i p C) Hi) as [Ai Ri]. pose proof (proj1 (lives_at n st j q C) Hj) as [Aj Rj].
  assert (Xp : exists_at st p = true) by (apply exists_at_spec; eauto). assert (Xq : exists_at st q = true) by (apply exists_at_spec; eauto).
  split.
  - intros d sign Hd Hs F. split.
    + apply (needs_false_spec n st p x R (proj1 Hx) (H i p Ai Ri) (direct n d sign) q y); try assumption.
      * now apply face_dirs_in.
      * now apply (touches_face n (s_tree st) p x q y d sign W Hx Hy Hd Hs).
    + assert (Hs' : (- sign = 1 \/ - sign = -1)%Z) by lia. apply share_face_sym in F; [|exact Hs].
      apply (needs_false_spec n st q y R (proj1 Hy) (H j q Aj Rj) (direct n d (- sign)) p x); try assumption.
      * now apply face_dirs_in.
      * now apply (touches_face n (s_tree st) q y p x d (- sign) W Hy Hx Hd Hs').
  - intros dir Hdir Ht. apply (needs_false_spec n st p x R (proj1 Hx) (H i p Ai Ri) dir q y); try assumption.
    destruct Hi as (x' & e & K1 & K2 & _). destruct Hx as [Hx _]. assert (x' = x) by congruence. subst x'. rewrite K2.
    now apply edge_dirs_in.
Qed.
