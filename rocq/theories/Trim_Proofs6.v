(** [deform]: exchanging Cartesian and deformed elements *)
From Coq Require Import ZArith List Bool Arith Lia Permutation.
From Verif Require Import Outcome Loop ListUtil Tree_Model Tree_Spec Tree_Proofs Tree_Neighbors Tree_Flood Tree_Thm Update_Model Update_Spec Update_Proofs1
  Update_Proofs2 Update_Proofs3 Update_Proofs4 Update_Proofs9 Trim_Model Trim_Spec Trim_Proofs1 Trim_Proofs2 Trim_Proofs3 Trim_Proofs4 Trim_Proofs5.
Import ListNotations.
Local Open Scope nat_scope.

Lemma update_nth_app {A} (f : A -> A) l a : forall i, i < length l -> update_nth i f (l ++ [a]) = update_nth i f l ++ [a].
Proof. induction l as [|b l IH]; intros [|i] H; cbn in *; try lia; [reflexivity|]. f_equal. apply IH. lia. Qed.

Lemma step_toggle n b st p i : Cons n st -> elem_at st p = Some i -> record_of st i = 3%Z ->
  exists st', toggle_one n b i st = Ok st' /\ Cons n st' /\ forget_elem (s_tree st') = forget_elem (s_tree st) /\
    s_elems st' = update_nth i (put_record 2) (s_elems st) ++ [mk_elem (Some p) (negb b) 0%Z false] /\
    (forall q, elem_at st' q = if path_eqb q p then Some (length (s_elems st)) else elem_at st q) /\ (Whole st -> Whole st').
Proof.
  intros C Hp R. unfold toggle_one. rewrite R, Z.eqb_refl. assert (Ht := proj2 (tree_of_at n st i p C) Hp). rewrite Ht. cbn [of_option_ub bind].
  destruct (exists_leaf n st p C) as (e & s & Ip). { apply exists_at_spec. exists i. split; [exact Hp|]. rewrite R. discriminate. }
  assert (Li := elem_at_lt n st p i C Hp).
  assert (C2 : Cons n (set_record i 2 st)) by (apply Cons_set; auto; lia).
  destruct (step_add n (negb b) st p e s C Ip) as (s1 & E1 & C1 & L1 & A1 & I1). rewrite E1. cbn [bind].
  eexists. split; [reflexivity|]. split; [apply Cons_set; auto; lia|].
  split. { cbn [s_tree set_record]. unfold add_elem, on_tree in E1. destruct (inf_subtree _ _ _ Ip) as (x & Hx & _). cbn [tree_step] in E1. rewrite Hx in E1.
           cbn [bind s_tree] in E1. injection E1 as <-. apply forget_elem_set. }
  assert (L2 : s_elems (set_record i 2 s1) = update_nth i (put_record 2) (s_elems st) ++ [mk_elem (Some p) (negb b) 0%Z false]).
  { unfold set_record. cbn [s_elems]. rewrite L1. apply update_nth_app, Li. }
  split; [exact L2|]. split; [exact A1|]. intros W.
  apply (Whole_add n (negb b) (set_record i 2 st) p); auto.
  - apply Whole_set; auto.
  - unfold exists_at. rewrite elem_at_set, Hp, record_set, Nat.eqb_refl. destruct (Nat.ltb_spec i (length (s_elems st))); [reflexivity|lia].
  - intros q. rewrite length_set, !elem_at_set. apply A1.
Qed.

Section toggle.
Variables (n : nat) (s : state).
Hypothesis (Cs : Cons n s) (H3 : forall i, record_of s i = 3%Z -> exists p, elem_at s p = Some i).

Record Inv (st : state) : Prop := {
  iv_cons : Cons n st;
  iv_tree : forget_elem (s_tree st) = forget_elem (s_tree s);
  iv_none : forall p, elem_at s p = None -> elem_at st p = None;
  iv_some : forall p i, elem_at s p = Some i -> elem_at st p = Some i /\ nth_error (s_elems st) i = nth_error (s_elems s) i \/
    record_of s i = 3%Z /\ exists j, elem_at st p = Some j /\ nth_error (s_elems st) j = Some (mk_elem (Some p) (negb (def_of s i)) 0%Z false);
  iv_rest : forall i e, nth_error (s_elems s) i = Some e -> e_record e <> 3%Z -> nth_error (s_elems st) i = Some e;
  iv_three : forall i, record_of st i = 3%Z -> nth_error (s_elems st) i = nth_error (s_elems s) i /\ exists p, elem_at s p = Some i /\ elem_at st p = Some i;
  iv_whole : Whole s -> Whole st
}.

Lemma Inv_start : Inv s.
Proof. split; auto. intros i R. split; [reflexivity|]. destruct (H3 i R) as (p & Hp). eauto. Qed.

Lemma record_nth st i r : record_of st i = r -> r <> 2%Z -> exists e, nth_error (s_elems st) i = Some e /\ e_record e = r.
Proof. unfold record_of. destruct (nth_error (s_elems st) i) as [e|]; [eauto|congruence]. Qed.

Lemma toggle_one_ok b i st : Inv st -> (record_of st i = 3%Z -> def_of st i = b) ->
  exists st', toggle_one n b i st = Ok st' /\ Inv st' /\ record_of st' i <> 3%Z /\ (forall j, record_of st' j = 3%Z -> record_of st j = 3%Z).
Proof.
  intros [C T N Sm Rs Th W] Hb. destruct (Z.eqb_spec (record_of st i) 3) as [R|R].
  2:{ exists st. unfold toggle_one. destruct (Z.eqb_spec (record_of st i) 3); [contradiction|]. split; [reflexivity|]. split; [now constructor|auto]. }
  destruct (Th i R) as (En & p & Ps & Pt). destruct (step_toggle n b st p i C Pt R) as (st' & E & C' & T' & L' & A' & W').
  pose proof (elem_at_lt n st p i C Pt) as Li.
  assert (Nj : forall j, j < length (s_elems st) -> j <> i -> nth_error (s_elems st') j = nth_error (s_elems st) j).
  { intros j Lj Hj. rewrite L', nth_error_app1 by (now rewrite update_nth_length). rewrite nth_error_update_nth. destruct (Nat.eqb_spec i j); [congruence|reflexivity]. }
  assert (Nn : nth_error (s_elems st') (length (s_elems st)) = Some (mk_elem (Some p) (negb b) 0%Z false)).
  { rewrite L', nth_error_app2 by (rewrite update_nth_length; lia). now rewrite update_nth_length, Nat.sub_diag. }
  assert (Ri : record_of st' i = 2%Z).
  { unfold record_of. rewrite L', nth_error_app1 by (now rewrite update_nth_length). rewrite nth_error_update_nth, Nat.eqb_refl.
    destruct (nth_error (s_elems st) i) eqn:K; [reflexivity|]. apply nth_error_None in K. lia. }
  assert (Rs3 : record_of s i = 3%Z) by (unfold record_of in R |- *; now rewrite En in R).
  assert (Ds : def_of s i = b) by (rewrite <- (Hb R); unfold def_of; now rewrite En).
  assert (Back : forall j, record_of st' j = 3%Z -> record_of st j = 3%Z /\ j <> i /\ nth_error (s_elems st') j = nth_error (s_elems st) j).
  { intros j Hj. destruct (record_nth st' j 3 Hj ltac:(lia)) as (e & E1 & E2).
    assert (j <> i) by congruence. assert (Lj : j < length (s_elems st)).
    { assert (j < length (s_elems st')) by (apply nth_error_Some; congruence). rewrite L', app_length, update_nth_length in H0. cbn in H0.
      destruct (Nat.eq_dec j (length (s_elems st))) as [->|]; [|lia]. rewrite Nn in E1. injection E1 as <-. discriminate. }
    rewrite (Nj j Lj H) in *. split; [|auto]. unfold record_of. now rewrite E1. }
  exists st'. split; [exact E|]. split; [|split; [lia|intros j Hj; now apply Back]]. split.
  - exact C'.
  - congruence.
  - intros q Hq. rewrite A'. destruct (path_eqb_spec q p) as [->|]; [congruence|auto].
  - intros q j Hq. rewrite A'. destruct (path_eqb_spec q p) as [->|Hne].
    + right. assert (j = i) by congruence. subst j. split; [exact Rs3|]. exists (length (s_elems st)). split; [reflexivity|]. now rewrite Nn, Ds.
    + assert (Hji : j <> i) by (intros ->; apply Hne; eapply (elem_at_inj n s); eassumption).
      destruct (Sm q j Hq) as [[S1 S2]|(S1 & k & S2 & S3)].
      * left. split; [exact S1|]. rewrite Nj; auto. apply (elem_at_lt n st q j C S1).
      * right. split; [exact S1|]. exists k. split; [exact S2|]. rewrite Nj; auto; [apply (elem_at_lt n st q k C S2)|].
        intros ->. apply Hne. eapply (elem_at_inj n st); eassumption.
  - intros j e H1 H2. specialize (Rs j e H1 H2). rewrite Nj; auto; [apply nth_error_Some; congruence|]. intros ->. apply record_of_nth in H1. congruence.
  - intros j Hj. destruct (Back j Hj) as (B1 & B2 & B3). destruct (Th j B1) as (T1 & q & T2 & T3). split; [congruence|]. exists q. split; [exact T2|].
    rewrite A'. destruct (path_eqb_spec q p) as [->|]; [congruence|exact T3].
  - auto.
Qed.

Lemma toggle_loop b l : forall st, Inv st -> (forall i, In i l -> record_of st i = 3%Z -> def_of st i = b) ->
  exists st', ofold (toggle_one n b) l st = Ok st' /\ Inv st' /\ (forall i, In i l -> record_of st' i <> 3%Z) /\
    (forall j, record_of st' j = 3%Z -> record_of st j = 3%Z).
Proof.
  induction l as [|i l IH]; intros st I Hd; cbn [ofold]; [exists st; split; [reflexivity|]; split; [exact I|]; split; [intros i []|auto]|].
  destruct (toggle_one_ok b i st I (Hd i (or_introl eq_refl))) as (s1 & E1 & I1 & N1 & B1). rewrite E1. cbn [bind].
  destruct (IH s1 I1) as (s2 & E2 & I2 & N2 & B2).
  { intros j Hj R. pose proof (iv_three st I j (B1 j R)) as [A _]. pose proof (iv_three s1 I1 j R) as [A' _].
    rewrite <- (Hd j (or_intror Hj) (B1 j R)). unfold def_of. now rewrite A, A'. }
  exists s2. split; [exact E2|]. split; [exact I2|]. split; [|auto]. intros j [<-|Hj]; [|auto]. intros K. apply N1, B2, K.
Qed.

Lemma toggle_ok : exists st', toggle n s = Ok st' /\ Inv st' /\ forall i, record_of st' i <> 3%Z.
Proof.
  unfold toggle. destruct (toggle_loop false (container s false) s Inv_start) as (s1 & E1 & I1 & N1 & B1).
  { intros i Hi _. apply container_in in Hi as (e & E & D). unfold def_of. now rewrite E. }
  rewrite E1. cbn [bind]. destruct (toggle_loop true (container s1 true) s1 I1) as (s2 & E2 & I2 & N2 & B2).
  { intros i Hi _. apply container_in in Hi as (e & E & D). unfold def_of. now rewrite E. }
  exists s2. split; [exact E2|]. split; [exact I2|]. intros i R. pose proof (B2 i R) as R1. pose proof (B1 i R1) as R0.
  destruct (iv_three s1 I1 i R1) as [A _]. destruct (record_nth s i 3 R0 ltac:(lia)) as (e & E & _). destruct (e_def e) eqn:D.
  - apply (N2 i); [|exact R]. apply container_in. exists e. split; [congruence|exact D].
  - apply (N1 i); [|exact R1]. apply container_in. exists e. auto.
Qed.
End toggle.

(** ** everything *)
Lemma forget_same t t' : forget_elem t' = forget_elem t -> same_nodes t t'.
Proof.
  assert (K : forall t t' p x, forget_elem t' = forget_elem t -> subtree t p = Some x -> exists x', subtree t' p = Some x' /\ forget_elem x' = forget_elem x).
  { intros a b p x E H. pose proof (forget_elem_subtree a p) as A. pose proof (forget_elem_subtree b p) as B. rewrite E, A, H in B. cbn in B.
    destruct (subtree b p) as [x'|]; [|discriminate]. cbn in B. injection B as B. exists x'. auto. }
  intros E. split.
  - intros p x H. destruct (K t t' p x E H) as (x' & H' & F). exists x'. split; [exact H'|]. destruct x as [l c s e cs], x' as [l' c' s' e' cs'].
    cbn in F. injection F as -> -> -> F. cbn. repeat split; auto; intros ->; cbn in F; [now destruct cs|now destruct cs'].
  - intros p (x & H). destruct (K t' t p x (eq_sym E) H) as (x' & H' & _). now exists x'.
Qed.

Lemma deform_ok n st0 ord1 ord2 order fuel : Cons n st0 -> Clean st0 -> (forall i, record_of st0 i <> 3%Z) ->
  (forall p x q y d sign, occupied st0 p x -> occupied st0 q y -> d < n -> unit_sign sign -> share_face n d sign x y -> covered_face n st0 x d sign) ->
  Permutation ord1 (seq 0 (length (s_elems st0))) -> Permutation ord2 (seq 0 (length (s_elems st0))) ->
  (forall k, Permutation (order k) (seq 0 (length (s_elems st0)))) -> length (s_elems st0) < fuel ->
  exists st', deform fuel n ord1 ord2 order st0 = Ok st' /\ Cons n st' /\ forget_elem (s_tree st') = forget_elem (s_tree st0) /\ (Whole st0 -> Whole st') /\
    (forall p, exists_at st' p = exists_at st0 p) /\
    (forall p i, elem_at st' p = Some i -> record_of st' i = 0%Z \/ record_of st' i = 2%Z) /\
    (forall p i, elem_at st' p = Some i -> exists_at st' p = true -> def_of st' i = true <-> deformable n st0 p) /\
    (forall i e, nth_error (s_elems st0) i = Some e -> (forall p, elem_at st0 p <> Some i) \/ e_record e = 2%Z -> nth_error (s_elems st') i = Some e).
Proof.
  intros C0 K0 K X0 P1 P2 P3 L.
  destruct (deform_marks n st0 ord1 ord2 order fuel C0 K0 X0 P1 P2 P3 L) as (s & E & S & D).
  pose proof (Same_Cons n st0 C0 s S) as Cs.
  assert (H3 : forall i, record_of s i = 3%Z -> exists p, elem_at s p = Some i).
  { intros i R. destruct (record_nth s i 3 R ltac:(lia)) as (e & E1 & E2).
    destruct (nth_error (s_elems st0) i) as [e0|] eqn:E0.
    2:{ apply nth_error_None in E0. rewrite <- (sm_length _ _ _ S) in E0. apply nth_error_None in E0. congruence. }
    destruct (sm_elem _ _ _ S i e0 E0) as (e' & E' & _ & _ & _ & Q). assert (e' = e) by congruence. subst e'. pose proof (K i) as Ki.
    rewrite (record_of_nth _ _ _ E0) in Ki. destruct Q as [Q|((p & Hp) & _)]; [lia|]. exists p. now rewrite (Same_elem_at n st0 s p S). }
  destruct (toggle_ok n s Cs H3) as (st' & E' & I & N). exists st'. split; [congruence|]. split; [apply I|].
  split; [rewrite (iv_tree n s st' I), (sm_tree _ _ _ S); reflexivity|]. split.
  { intros W. apply (iv_whole n s st' I). intros i e p H1 H2 H4. rewrite (Same_elem_at n st0 s p S).
    destruct (nth_error (s_elems st0) i) as [e0|] eqn:E0.
    2:{ apply nth_error_None in E0. rewrite <- (sm_length _ _ _ S) in E0. apply nth_error_None in E0. congruence. }
    destruct (sm_elem _ _ _ S i e0 E0) as (e' & E1 & Pa & _ & _ & Q). assert (e' = e) by congruence. subst e'. apply (W i e0 p E0); [congruence|].
    destruct Q as [Q|(_ & Q & _)]; congruence. }
  assert (V : forall p i, elem_at s p = Some i -> exists j, elem_at st' p = Some j /\ (record_of st' j = 2 <-> record_of st0 i = 2)%Z /\
    (record_of st' j = 0 \/ record_of st' j = 2)%Z /\ (record_of st0 i <> 2%Z -> def_of st' j = is_def s i)).
  { intros p i Hs. assert (H0 := Hs). rewrite (Same_elem_at n st0 s p S) in H0. destruct (Same_record n st0 C0 K0 s p i S H0) as [R1 R2].
    destruct (iv_some n s st' I p i Hs) as [[V1 V2]|(V0 & j & V1 & V2)].
    - exists i. split; [exact V1|]. assert (Er : record_of st' i = record_of s i) by (unfold record_of; now rewrite V2). rewrite Er. split; [exact R1|].
      pose proof (N i) as Ni. rewrite Er in Ni. split; [destruct (Z.eq_dec (record_of st0 i) 2); tauto|]. intros Hr.
      assert (R0 : record_of s i = 0%Z) by tauto. unfold is_def. rewrite R0. assert (Ed : def_of st' i = def_of s i) by (unfold def_of; now rewrite V2).
      rewrite Ed. now destruct (def_of s i).
    - exists j. split; [exact V1|]. rewrite (record_of_nth _ _ _ V2). cbn [e_record]. split; [split; [discriminate|intros Z2; apply R1 in Z2; lia]|].
      split; [auto|]. intros _. unfold def_of. rewrite V2. cbn [e_def]. unfold is_def. rewrite V0. cbn. now destruct (def_of s i). }
  split.
  { intros p. unfold exists_at. rewrite <- (Same_elem_at n st0 s p S). destruct (elem_at s p) as [i|] eqn:Hs; [|now rewrite (iv_none n s st' I p Hs)].
    destruct (V p i Hs) as (j & -> & [V1 V2] & _). destruct (Z.eqb_spec (record_of st' j) 2), (Z.eqb_spec (record_of st0 i) 2); auto; tauto. }
  split; [|split].
  - intros p j Hj. destruct (elem_at s p) as [i|] eqn:Hs; [|rewrite (iv_none n s st' I p Hs) in Hj; discriminate].
    destruct (V p i Hs) as (j' & Hj' & _ & V1 & _). assert (j' = j) by congruence. subst j'. exact V1.
  - intros p j Hj Hx. destruct (elem_at s p) as [i|] eqn:Hs; [|rewrite (iv_none n s st' I p Hs) in Hj; discriminate].
    destruct (V p i Hs) as (j' & Hj' & V0 & _ & V1). assert (j' = j) by congruence. subst j'. apply exists_at_spec in Hx as (k & Hk & Rk).
    assert (k = j) by congruence. subst k. rewrite V1 by tauto. rewrite <- D. unfold dd. rewrite Hs. reflexivity.
  - intros i e E0 H. apply (iv_rest n s st' I).
    + destruct (sm_elem _ _ _ S i e E0) as (e' & E1 & Pa & De & Lo & Q). rewrite E1. f_equal. destruct Q as [Q|((p & Hp) & Q & _)].
      * destruct e, e'. cbn in *. congruence.
      * exfalso. destruct H as [H|H]; [apply (H p Hp)|congruence].
    + pose proof (K i) as Ki. rewrite (record_of_nth _ _ _ E0) in Ki. lia.
Qed.
