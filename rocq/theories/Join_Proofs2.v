(** [connect_new]: the connections it makes are right, and no face is connected twice. *)
From Coq Require Import ZArith QArith List Bool Arith Lia.
From Verif Require Import Outcome Loop Tree_Model Tree_Spec Tree_Proofs Tree_Neighbors Tree_Flood Update_Model Update_Spec Update_Proofs1 Update_Proofs4 Trim_Model Trim_Spec
  Trim_Proofs4 Join_Model Join_Spec Join_Proofs1.
Import ListNotations.
Local Open Scope nat_scope.

Lemma face_eqb_spec a b : face_eqb a b = true <-> a = b.
Proof.
  destruct a as [[a1 a2] a3], b as [[b1 b2] b3]. unfold face_eqb. cbn. rewrite !andb_true_iff, !Nat.eqb_eq, eqb_true_iff. intuition congruence.
Qed.
Lemma existsb_face f l : existsb (face_eqb f) l = true <-> In f l.
Proof. rewrite existsb_exists. split; [intros (x & Hx & E); apply face_eqb_spec in E; now subst|intros H; exists f; split; [exact H|now apply face_eqb_spec]]. Qed.

Lemma sgn_negb s : sgn (negb s) = (- sgn s)%Z. Proof. now destruct s. Qed.
Lemma share_sym n d s x y : share_face n d (sgn s) x y -> share_face n d (sgn (negb s)) y x.
Proof. intros H. rewrite sgn_negb. apply share_face_sym; [apply sgn_unit|exact H]. Qed.

Definition tree_link (l : link) : Prop := match l with Conf _ _ _ _ _ | Refd _ _ _ _ _ | Bnd _ _ _ => True | _ => False end.

Section Join.
Variables (n : nat) (st : state).
Hypothesis C : Cons n st.
Hypothesis Rc : forall p i, elem_at st p = Some i -> record_of st i <> 2%Z.
Hypothesis Wh : forall p x q y d s, occupied st p x -> occupied st q y -> d < n -> share_face n d (sgn s) x y -> covered_face n st x d (sgn s).

Lemma on_leaf_at i p x : on_leaf st i p x <-> subtree (s_tree st) p = Some x /\ elem_at st p = Some i.
Proof.
  unfold on_leaf. rewrite (lives_at n st i p C). split; [intros ([H _] & K & _); auto|]. intros [H K]. split; [|split; [exact K|eauto]]. split; [exact H|].
  destruct (elem_at_cons n st p i C K) as (e & lf & s & H1 & H2 & H3 & H4). specialize (Rc p i K). rewrite (record_of_nth _ _ _ H1) in Rc. specialize (H4 Rc). subst lf.
  unfold inf, info in H3. rewrite H in H3. injection H3 as H3 _ _. now apply is_leaf_true.
Qed.
Lemma on_leaf_occupied i p x : on_leaf st i p x -> occupied st p x.
Proof. intros [H K]. split; eauto. Qed.
Lemma occupied_on_leaf p x : occupied st p x -> exists i, on_leaf st i p x.
Proof. intros [H [i K]]. exists i. split; auto. Qed.
Lemma on_leaf_fun i j p x y : on_leaf st i p x -> on_leaf st j p y -> i = j /\ x = y.
Proof. rewrite !on_leaf_at. intros [H K] [H' K']. split; congruence. Qed.
Lemma on_leaf_inj i p q x y : on_leaf st i p x -> on_leaf st i q y -> p = q /\ x = y.
Proof. rewrite !on_leaf_at. intros [H K] [H' K']. assert (p = q) by (eapply elem_at_inj; eauto). subst q. split; congruence. Qed.
Lemma on_leaf_extruded i p x : on_leaf st i p x -> is_extruded st i -> False.
Proof.
  rewrite on_leaf_at. intros [_ K] (e & H1 & H2). destruct (elem_at_cons n st p i C K) as (e' & _ & _ & K1 & K2 & _). congruence.
Qed.
Lemma level_len p x : leaf_at (s_tree st) p x -> t_level x = length p.
Proof. intros H. apply (level_length n (s_tree st)); [apply C|apply H]. Qed.

(** If a face is connected then so are the faces it touches, by the same connection. *)
Lemma joins_across c i p x d s j q y : right n st c -> on_leaf st i p x -> on_leaf st j q y -> d < n -> share_face n d (sgn s) x y ->
  In (i, d, s) (uses c) -> In (j, d, negb s) (uses c).
Proof.
  intros Hr Ox Oy Hd S H. destruct c as [b a a' d0 s0|b a fs d0 s0|e d0 s0|a o d0 s0|fs]; cbn [right uses] in Hr, H |- *.
  - destruct Hr as (_ & p1 & x1 & q1 & y1 & O1 & O2 & Lv & S1 & _). destruct H as [H|[H|[]]].
    + injection H as <- <- <-. destruct (on_leaf_inj _ _ _ _ _ Ox O1) as [<- <-].
      assert (q = q1). { apply (coarse_unique n (s_tree st) p x q1 y1 q y d0 s0); auto; try apply C; try apply Ox; try apply O2; try apply Oy.
        rewrite (level_len _ _ (proj1 O2)), (level_len _ _ (proj1 Ox)) in Lv. lia. }
      subst q1. destruct (on_leaf_fun _ _ _ _ _ Oy O2) as [<- _]. right; now left.
    + injection H as <- <- E. destruct (on_leaf_inj _ _ _ _ _ Ox O2) as [<- <-]. subst s.
      assert (q = p1). { apply (coarse_unique n (s_tree st) p x p1 x1 q y d0 (negb s0)); auto; try apply C; try apply Ox; try apply O1; try apply Oy; [now apply share_sym|].
        rewrite (level_len _ _ (proj1 O1)), (level_len _ _ (proj1 Ox)) in Lv. lia. }
      subst p1. destruct (on_leaf_fun _ _ _ _ _ Oy O1) as [<- _]. rewrite negb_involutive. now left.
  - destruct Hr as (_ & p1 & x1 & O1 & Lf & Hf & Ha & _). destruct H as [H|H].
    + injection H as <- <- <-. destruct (on_leaf_inj _ _ _ _ _ Ox O1) as [<- <-]. destruct (Ha q y (proj1 Oy) S) as (f & Hin & Lf0).
      assert (f = j) by (apply (on_leaf_fun f j q y y); [split; [apply Oy|exact Lf0]|exact Oy]). subst f. right. apply in_map_iff. eauto.
    + apply in_map_iff in H as (f & H & Hin). injection H as <- <- <-. apply In_nth_error in Hin as [k Hk]. destruct (Hf k f Hk) as (q1 & y1 & O2 & S1 & Rm & _).
      destruct (on_leaf_inj _ _ _ _ _ Ox O2) as [<- <-].
      assert (q = p1). { apply (coarse_unique n (s_tree st) p x p1 x1 q y d0 (negb s0)); auto; try apply C; try apply Ox; try apply O1; try apply Oy; [now apply share_sym|].
        rewrite (level_len _ _ (proj1 O1)), (level_len _ _ (proj1 Ox)) in Rm. lia. }
      subst p1. destruct (on_leaf_fun _ _ _ _ _ Oy O1) as [<- _]. rewrite negb_involutive. now left.
  - destruct Hr as (_ & p1 & x1 & O1 & B). destruct H as [H|[]]. injection H as <- <- <-. destruct (on_leaf_inj _ _ _ _ _ Ox O1) as [<- <-].
    apply (no_neighbor n (s_tree st) p x d0 s0) in B; auto; [|apply C|apply Ox]. destruct (nb_shape n (s_tree st) p x d0 s0 ltac:(apply C) ltac:(apply Ox) Hd) as (l & E & _ & _ & Hl & _).
    assert (l = []) by congruence. subst l. exfalso. apply (Hl q). exists y. split; [apply Oy|exact S].
  - destruct Hr as (_ & Eo & Ei). destruct H as [H|[H|[]]]; injection H as <- <- <-; exfalso.
    + destruct Ei as [(p1 & x1 & O1 & Nc)|Ei]; [|now apply (on_leaf_extruded _ _ _ Ox)]. destruct (on_leaf_inj _ _ _ _ _ Ox O1) as [<- <-].
      apply Nc. eapply Wh; eauto; eapply on_leaf_occupied; eauto.
    + now apply (on_leaf_extruded _ _ _ Ox).
  - exfalso. apply (on_leaf_extruded _ _ _ Ox). apply (Hr _ H).
Qed.

(** So a connection has all the faces of another one or none of them. *)
Lemma all_or_none l c g f : right n st l -> tree_link l -> right n st c -> In g (uses l) -> In g (uses c) -> In f (uses l) -> In f (uses c).
Proof.
  intros Hl Tl Hc Gl Gc Fl. destruct l as [b a a' d s|b a fs d s|e d s|a o d s|fs]; cbn [right uses tree_link] in *; try contradiction.
  - destruct Hl as (Hd & p & x & q & y & Ox & Oy & _ & S & _).
    assert (G : In (a, d, s) (uses c) <-> In (a', d, negb s) (uses c)).
    { split; intros H; [now apply (joins_across c a p x d s a' q y)|]. rewrite <- (negb_involutive s). eapply (joins_across c a' q y d (negb s) a p x); eauto. now apply share_sym. }
    destruct Gl as [<-|[<-|[]]], Fl as [<-|[<-|[]]]; tauto.
  - destruct Hl as (Hd & p & x & Ox & _ & Hf & _).
    assert (G : forall f0, In f0 (map (fun f => (f, d, negb s)) fs) -> (In (a, d, s) (uses c) <-> In f0 (uses c))).
    { intros f0 H. apply in_map_iff in H as (f1 & <- & H). apply In_nth_error in H as [k Hk]. destruct (Hf k f1 Hk) as (q & y & Oy & S & _).
      split; intros H; [now apply (joins_across c a p x d s f1 q y)|]. rewrite <- (negb_involutive s). eapply (joins_across c f1 q y d (negb s) a p x); eauto. now apply share_sym. }
    destruct Gl as [<-|Gl], Fl as [<-|Fl]; auto; [apply (G f Fl); exact Gc|apply (G g Gl); exact Gc|apply (G f Fl), (G g Gl); exact Gc].
  - destruct Gl as [<-|[]], Fl as [<-|[]]. exact Gc.
Qed.

(** ** Adding connections *)
Definition Grow (js js' : joined) : Prop :=
  well_joined n js' /\ j_st js' = j_st js /\ j_extr js' = j_extr js /\
  exists new, j_links js' = j_links js ++ new /\ Forall tree_link new.
Lemma Grow_refl js : well_joined n js -> Grow js js.
Proof. intros H. split; [exact H|]. split; [reflexivity|]. split; [reflexivity|]. exists []. now rewrite app_nil_r. Qed.
Lemma Grow_trans a b c : Grow a b -> Grow b c -> Grow a c.
Proof.
  intros (_ & S1 & E1 & n1 & L1 & F1) (W & S2 & E2 & n2 & L2 & F2). split; [exact W|]. split; [congruence|]. split; [congruence|].
  exists (n1 ++ n2). rewrite L2, L1, app_assoc. split; [reflexivity|]. apply Forall_app. auto.
Qed.
Lemma Grow_connected a b f : Grow a b -> connected a f -> connected b f.
Proof. intros (_ & _ & _ & nw & L & _) (l & Hl & Hf). exists l. rewrite L. split; [apply in_or_app; now left|exact Hf]. Qed.

Lemma add_Grow l js f : well_joined n js -> j_st js = st -> right n st l -> tree_link l -> NoDup (uses l) -> In f (uses l) -> j_face js f = false ->
  Grow js (add_link l js) /\ connected (add_link l js) f.
Proof.
  intros [Wr Wo Wf] Es Hr Tl ND Hf Ff.
  assert (K : connected (add_link l js) f). { exists l. cbn. split; [apply in_or_app; right; now left|exact Hf]. }
  split; [|exact K]. split; [|split; [reflexivity|split; [reflexivity|exists [l]; split; [reflexivity|auto]]]].
  split; cbn [add_link j_links j_st j_face].
  - intros c H. apply in_app_or in H as [H|[<-|[]]]; [now apply Wr|]. now rewrite Es.
  - rewrite flat_map_app. cbn [flat_map]. rewrite app_nil_r. apply NoDup_app'; auto. intros g G1 G2. apply in_flat_map in G1 as (c & Hc & Gc).
    assert (Fc : In f (uses c)). { apply (all_or_none l c g f); auto. rewrite <- Es. now apply Wr. }
    assert (j_face js f = true) by (apply Wf; exists c; auto). congruence.
  - intros g. rewrite orb_true_iff, Wf, existsb_face. unfold connected. cbn [add_link j_links]. split.
    + intros [(c & Hc & Gc)|H]; [exists c; split; [apply in_or_app; now left|exact Gc]|exists l; split; [apply in_or_app; right; now left|exact H]].
    + intros (c & Hc & Gc). apply in_app_or in Hc as [Hc|[<-|[]]]; [left; eauto|now right].
Qed.

(** *** conformal and boundary connections *)
Lemma def_deformed i p x : on_leaf st i p x -> (def_of st i = true <-> deformed st i).
Proof.
  intros O. apply on_leaf_at in O as [_ K]. destruct (elem_at_cons n st p i C K) as (e & _ & _ & H & _). unfold def_of, deformed. rewrite H.
  split; [intros D; eauto|]. intros (e' & E & D). congruence.
Qed.

Lemma conformal_right i p x j q y d s : on_leaf st i p x -> on_leaf st j q y -> d < n -> t_level y = t_level x -> share_face n d (sgn s) x y ->
  let l := conformal st i j d s in right n st l /\ tree_link l /\ NoDup (uses l) /\ In (i, d, s) (uses l).
Proof.
  intros Ox Oy Hd Lv S. cbv zeta. pose proof (def_deformed _ _ _ Ox) as D1. pose proof (def_deformed _ _ _ Oy) as D2. unfold conformal.
  assert (ND : forall (a b : nat) (s : bool), NoDup [(a, d, s); (b, d, negb s)] ). { intros a b [|]; (constructor; [intros [K|[]]; discriminate K|constructor; [intros []|constructor]]). }
  destruct (def_of st i && def_of st j) eqn:E.
  - apply andb_prop in E as [E1 E2]. split; [|split; [exact I|split; [apply ND|now left]]]. split; [exact Hd|]. exists p, x, q, y.
    split; [exact Ox|]. split; [exact Oy|]. split; [exact Lv|]. split; [exact S|]. split; [tauto|discriminate].
  - apply andb_false_iff in E. assert (X : ~ (deformed st i /\ deformed st j)). { rewrite <- D1, <- D2. destruct E as [-> | ->]; intuition discriminate. }
    destruct s.
    + split; [|split; [exact I|split; [apply (ND i j true)|now left]]]. split; [exact Hd|]. exists p, x, q, y.
      split; [exact Ox|]. split; [exact Oy|]. split; [exact Lv|]. split; [exact S|]. split; [split; [discriminate|tauto]|reflexivity].
    + split; [|split; [exact I|split; [apply (ND j i true)|right; now left]]]. split; [exact Hd|]. exists q, y, p, x.
      split; [exact Oy|]. split; [exact Ox|]. split; [now symmetry|]. split; [now apply (share_sym n d false)|]. split; [split; [discriminate|tauto]|reflexivity].
Qed.

(** *** refined connections *)
Lemma elems_at_all nb : (forall q, In q nb -> elem_at st q <> None) -> exists fs, elems_at st nb = Some fs /\ length fs = length nb /\
  (forall k f, nth_error fs k = Some f -> exists q, nth_error nb k = Some q /\ elem_at st q = Some f) /\
  (forall q, In q nb -> exists f, In f fs /\ elem_at st q = Some f) /\ (NoDup nb -> NoDup fs).
Proof.
  induction nb as [|q nb IH]; intros H; cbn [elems_at].
  - exists []. split; [reflexivity|]. split; [reflexivity|]. split; [intros [|k] f K; discriminate|]. split; [intros q []|intros _; constructor].
  - destruct (elem_at st q) as [i|] eqn:E; [|exfalso; apply (H q); [now left|exact E]]. destruct IH as (fs & -> & L & K1 & K2 & K3); [intros q0 Hq; apply H; now right|].
    exists (i :: fs). split; [reflexivity|]. split; [cbn; now rewrite L|]. split; [|split].
    + intros [|k] f K; cbn in K; [injection K as <-; exists q; auto|]. apply K1, K.
    + intros q0 [<-|Hq]; [exists i; split; [now left|exact E]|]. destruct (K2 q0 Hq) as (f & F1 & F2). exists f. split; [now right|exact F2].
    + intros ND. inversion ND as [|? ? N1 N2]. subst. constructor; [|auto]. intros Hi. apply In_nth_error in Hi as [k Hk]. destruct (K1 k i Hk) as (q1 & Q1 & Q2).
      assert (q1 = q) by (eapply elem_at_inj; eauto). subst q1. apply N1. eapply nth_error_In; eauto.
Qed.

Hypothesis Bal : balanced n st.

Lemma refined_ok c p x d s l js f : well_joined n js -> j_st js = st -> on_leaf st c p x -> d < n -> find_neighbors n (s_tree st) p (direct n d (sgn s)) = Ok l ->
  (exists q, In q l /\ length p < length q /\ elem_at st q <> None) ->
  f = (c, d, s) \/ (exists i q, In q l /\ elem_at st q = Some i /\ f = (i, d, negb s)) -> j_face js f = false ->
  exists js', connect_refined n c d s l js = Ok js' /\ Grow js js' /\ connected js' f.
Proof.
  intros Wj Es Ox Hd E (q0 & Hq0 & Lq0 & Eq0) Hf Ff. destruct (nb_shape n (s_tree st) p x d s ltac:(apply C) ltac:(apply Ox) Hd) as (l' & E' & _ & ND & HI & _).
  assert (l' = l) by congruence. subst l'. clear E'.
  assert (Cov : covered_face n st x d (sgn s)).
  { destruct (proj1 (HI q0) Hq0) as (y & Ly & S). destruct (elem_at st q0) as [j|] eqn:Ej; [|contradiction]. apply (Wh p x q0 y d s); auto; [now apply (on_leaf_occupied c)|].
    apply (on_leaf_occupied j). apply on_leaf_at. split; [apply Ly|exact Ej]. }
  assert (HE : forall q, In q l -> exists i y, elem_at st q = Some i /\ on_leaf st i q y /\ share_face n d (sgn s) x y).
  { intros q Hq. apply HI in Hq as (y & Ly & S). destruct (occupied_on_leaf q y (Cov q y Ly S)) as (i & O). exists i, y. split; [now apply on_leaf_at in O|auto]. }
  assert (HL : forall q, In q l -> length q <= S (length p)).
  { intros q Hq. destruct (HE q Hq) as (i & y & _ & Oy & S). destruct (Bal p x q y (on_leaf_occupied _ _ _ Ox) (on_leaf_occupied _ _ _ Oy)) as [B _].
    destruct (B d (sgn s) Hd (sgn_unit s) S) as [B1 _]. rewrite (level_len _ _ (proj1 Ox)), (level_len _ _ (proj1 Oy)) in B1. lia. }
  destruct (fine_group n (s_tree st) p x d s l ltac:(apply C) (proj1 Ox) Hd E HL (ex_intro _ q0 (conj Hq0 Lq0))) as [Len Rm].
  destruct (elems_at_all l) as (fs & Ef & Lf & K1 & K2 & K3). { intros q Hq. destruct (HE q Hq) as (i & _ & -> & _). discriminate. }
  unfold connect_refined. rewrite Len, Nat.eqb_refl, Es, Ef. set (lk := Refd _ _ _ _ _). exists (add_link lk js). split; [reflexivity|].
  apply (add_Grow lk js f Wj Es).
  - split; [exact Hd|]. exists p, x. split; [exact Ox|]. split; [congruence|]. split; [|split].
    + intros k f0 Hk. destruct (K1 k f0 Hk) as (q & Q1 & Q2). destruct (HE q (nth_error_In _ _ Q1)) as (i & y & Q3 & Oy & S). assert (i = f0) by congruence. subst i.
      exists q, y. split; [exact Oy|]. split; [exact S|]. apply (Rm k q Q1). apply Oy.
    + intros q y Ly S. assert (Hq : In q l) by (apply HI; eauto). destruct (K2 q Hq) as (f0 & F1 & F2). exists f0. split; [exact F1|].
      apply (lives_at n st f0 q C). split; [exact F2|eauto].
    + rewrite andb_true_iff, (def_deformed c p x Ox), forallb_forall.
      assert (D : forall f0, In f0 fs -> (def_of st f0 = true <-> deformed st f0)).
      { intros f0 H. apply In_nth_error in H as [k Hk]. destruct (K1 k f0 Hk) as (q & Q1 & Q2). destruct (HE q (nth_error_In _ _ Q1)) as (i & y & Q3 & Oy & S).
        assert (i = f0) by congruence. subst i. eapply def_deformed; eauto. }
      split; (intros [H1 H2]; split; [exact H1|]); intros f0 H; apply (D f0 H), (H2 f0 H).
  - exact I.
  - cbn [lk uses]. constructor.
    + intros H. apply in_map_iff in H as (f0 & H & _). injection H. now destruct s.
    + clear - K3 ND. specialize (K3 ND). induction K3 as [|a fs H _ IH]; cbn [map]; constructor; auto. intros K. apply in_map_iff in K as (b & K & Hb). apply H. congruence.
  - destruct Hf as [->|(i & q & Hq & Ei & ->)]; [now left|]. right. destruct (K2 q Hq) as (f0 & F1 & F2). apply in_map_iff. exists f0. split; [congruence|exact F1].
  - exact Ff.
Qed.

(** ** One face, one element, all elements *)
Hypothesis Hn : 2 <= n.

Lemma connect_face_ok i p x d s js : well_joined n js -> j_st js = st -> on_leaf st i p x -> d < n ->
  exists js', connect_face n i p (d, s) js = Ok js' /\ Grow js js' /\
    (covered_face n st x d (sgn s) -> connected js' (i, d, s) \/ exists j q y, on_leaf st j q y /\ share_face n d (sgn s) x y /\ length q < length p).
Proof.
  intros Wj Es Ox Hd. cbn [connect_face]. rewrite Es. destruct (j_face js (i, d, s)) eqn:Ff.
  { exists js. split; [reflexivity|]. split; [now apply Grow_refl|]. intros _. left. now apply (wj_flags n js Wj). }
  destruct (nb_shape n (s_tree st) p x d s ltac:(apply C) (proj1 Ox) Hd) as (l & E & _ & ND & HI & Sh). rewrite E. cbn [bind]. destruct l as [|q rest].
  - destruct (add_Grow (Bnd i d s) js (i, d, s)) as [G K]; auto; try exact I.
    + split; [exact Hd|]. exists p, x. split; [exact Ox|]. apply (no_neighbor n (s_tree st) p x d s); auto; [apply C|apply Ox].
    + constructor; [intros []|constructor].
    + now left.
    + eexists. split; [reflexivity|]. split; [exact G|]. intros _. now left.
  - destruct (proj1 (HI q) (or_introl eq_refl)) as (y & Ly & S). destruct (elem_at st q) as [j|] eqn:Ej.
    2:{ exists js. split; [reflexivity|]. split; [now apply Grow_refl|]. intros Cov. exfalso. destruct (occupied_on_leaf q y (Cov q y Ly S)) as (j & O). apply on_leaf_at in O as [_ O]. congruence. }
    assert (Oy : on_leaf st j q y) by (apply on_leaf_at; split; [apply Ly|exact Ej]).
    assert (Lp : level_at st p = length p). { unfold level_at. rewrite (proj1 (proj1 Ox)). apply level_len, Ox. }
    assert (Lq : level_at st q = length q). { unfold level_at. rewrite (proj1 Ly). apply level_len, Ly. }
    destruct rest as [|q' rest].
    + assert (Len : length q <= length p).
      { destruct (Nat.le_gt_cases (length q) (length p)) as [K|K]; [exact K|exfalso].
        destruct (fine_group n (s_tree st) p x d s [q] ltac:(apply C) (proj1 Ox) Hd E) as [F _].
        - intros q1 [<-|[]]. destruct (Bal p x q y (on_leaf_occupied _ _ _ Ox) (on_leaf_occupied _ _ _ Oy)) as [B _].
          destruct (B d (sgn s) Hd (sgn_unit s) S) as [B1 _]. rewrite (level_len _ _ (proj1 Ox)), (level_len _ _ (proj1 Oy)) in B1. lia.
        - exists q. split; [now left|exact K].
        - cbn in F. assert (2 ^ 1 <= 2 ^ (n - 1)) by (apply Nat.pow_le_mono_r; lia). cbn in *. lia. }
      rewrite Lp, Lq. destruct (Nat.eqb_spec (length q) (length p)) as [El|Nl].
      * destruct (conformal_right i p x j q y d s Ox Oy Hd) as (R1 & R2 & R3 & R4); [rewrite (level_len _ _ Ly), (level_len _ _ (proj1 Ox)); exact El|exact S|].
        destruct (add_Grow _ js (i, d, s) Wj Es R1 R2 R3 R4 Ff) as [G K]. eexists. split; [reflexivity|]. split; [exact G|]. intros _. now left.
      * rewrite (proj1 (proj1 Ox)). cbn [of_option_ub bind]. destruct (min_corner n x d).
        -- destruct (nb_shape n (s_tree st) q y d (negb s) ltac:(apply C) Ly Hd) as (l' & E' & _ & _ & HI' & _). rewrite sgn_negb in E'. rewrite E'. cbn [bind].
           rewrite <- sgn_negb in E'. assert (Hp : In p l') by (apply HI'; exists x; split; [apply Ox|now apply share_sym]).
           destruct (refined_ok j q y d (negb s) l' js (i, d, s) Wj Es Oy Hd E') as (js' & E1 & G & K); auto.
           ++ exists p. split; [exact Hp|]. split; [lia|]. apply on_leaf_at in Ox as [_ ->]. discriminate.
           ++ right. exists i, p. split; [exact Hp|]. split; [now apply on_leaf_at in Ox|]. now rewrite negb_involutive.
           ++ exists js'. split; [exact E1|]. split; [exact G|]. intros _. now left.
        -- exists js. split; [reflexivity|]. split; [now apply Grow_refl|]. intros _. right. exists j, q, y. split; [exact Oy|]. split; [exact S|]. lia.
    + destruct Sh as [K|[(q1 & K & _)|(m & w & Lm & Hw & Cw & K)]]; [discriminate|discriminate|].
      destruct (refined_ok i p x d s (q :: q' :: rest) js (i, d, s) Wj Es Ox Hd E) as (js' & E1 & G & K'); auto.
      * exists q. split; [now left|]. split; [|congruence]. assert (Hin : In q (map (app m) (extremal_leaves n (bias3 n (direct n d (sgn s))) w))) by (rewrite <- K; now left).
        apply in_map_iff in Hin as (r & <- & _). rewrite app_length, Lm. destruct r as [|k r]; [|cbn; lia]. exfalso. rewrite app_nil_r in Ly. destruct Ly as [Hy Cy]. congruence.
      * exists js'. split; [exact E1|]. split; [exact G|]. intros _. now left.
Qed.

Definition face_done (js : joined) (i : nat) (ds : nat * bool) : Prop :=
  forall p x, on_leaf st i p x -> covered_face n st x (fst ds) (sgn (snd ds)) ->
    connected js (i, fst ds, snd ds) \/ exists j q y, on_leaf st j q y /\ share_face n (fst ds) (sgn (snd ds)) x y /\ length q < length p.
Lemma face_done_grow a b i ds : Grow a b -> face_done a i ds -> face_done b i ds.
Proof. intros G H p x O K. destruct (H p x O K) as [K'|K']; [left; eapply Grow_connected; eauto|now right]. Qed.

Lemma faces_of_in d s : In (d, s) (faces_of n) <-> d < n.
Proof.
  unfold faces_of. rewrite in_flat_map. split.
  - intros (a & Ha & H). apply in_seq in Ha. destruct H as [H|[H|[]]]; injection H as <- <-; lia.
  - intros H. exists d. split; [apply in_seq; lia|]. destruct s; [right; now left|now left].
Qed.

Lemma connect_elem_ok i js : well_joined n js -> j_st js = st ->
  exists js', connect_elem n i js = Ok js' /\ Grow js js' /\ forall d s, d < n -> face_done js' i (d, s).
Proof.
  intros Wj Es. unfold connect_elem. rewrite Es. destruct (tree_of st i) as [p|] eqn:Et.
  2:{ exists js. split; [reflexivity|]. split; [now apply Grow_refl|]. intros d s _ p x O. apply on_leaf_at in O as [_ O]. apply (tree_of_at n st i p C) in O. congruence. }
  apply (tree_of_at n st i p C) in Et. assert (exists x, on_leaf st i p x) as (x & Ox).
  { unfold elem_at in Et. destruct (subtree (s_tree st) p) as [x|] eqn:Ex; [|discriminate]. exists x. apply on_leaf_at. split; [exact Ex|]. unfold elem_at. now rewrite Ex. }
  destruct (ofold_inv (connect_face n i p) (fun done js' => Grow js js' /\ forall ds, In ds done -> face_done js' i ds) (faces_of n) js) as (js' & E & G & F).
  - split; [now apply Grow_refl|intros ds []].
  - intros done [d s] rest t El [G F]. assert (Hd : d < n) by (apply (faces_of_in d s); rewrite El; apply in_or_app; right; now left).
    assert (Et' : j_st t = st) by (destruct G as (_ & -> & _); exact Es).
    destruct (connect_face_ok i p x d s t (proj1 G) Et' Ox Hd) as (t' & E1 & G1 & K). exists t'. split; [exact E1|]. split; [eapply Grow_trans; eauto|].
    intros ds H. apply in_app_or in H as [H|[<-|[]]]; [eapply face_done_grow; eauto|]. intros p' x' O. destruct (on_leaf_inj _ _ _ _ _ Ox O) as [<- <-]. exact K.
  - exists js'. split; [exact E|]. split; [exact G|]. intros d s Hd. apply F. now apply faces_of_in.
Qed.

Lemma connect_list l js : well_joined n js -> j_st js = st ->
  exists js', ofold (connect_elem n) l js = Ok js' /\ Grow js js' /\ forall i d s, In i l -> d < n -> face_done js' i (d, s).
Proof.
  intros Wj Es. destruct (ofold_inv (connect_elem n) (fun done js' => Grow js js' /\ forall i d s, In i done -> d < n -> face_done js' i (d, s)) l js) as (js' & E & G & F).
  - split; [now apply Grow_refl|intros i d s []].
  - intros done i rest t El [G F]. assert (Et : j_st t = st) by (destruct G as (_ & -> & _); exact Es). destruct (connect_elem_ok i t (proj1 G) Et) as (t' & E1 & G1 & K).
    exists t'. split; [exact E1|]. split; [eapply Grow_trans; eauto|]. intros j d s H Hd. apply in_app_or in H as [H|[<-|[]]]; [eapply face_done_grow; eauto|now apply K].
  - exists js'. auto.
Qed.

Lemma connect_both js : well_joined n js -> j_st js = st ->
  exists js', (let! a := connect_new n false js in connect_new n true a) = Ok js' /\ Grow js js' /\ all_joined n js'.
Proof.
  intros Wj Es. unfold connect_new. destruct (connect_list (container (j_st js) false) js Wj Es) as (a & E1 & G1 & F1). rewrite E1. cbn [bind].
  assert (Ea : j_st a = st) by (destruct G1 as (_ & -> & _); exact Es). destruct (connect_list (container (j_st a) true) a (proj1 G1) Ea) as (b & E2 & G2 & F2).
  exists b. split; [exact E2|]. assert (G : Grow js b) by (eapply Grow_trans; eauto). split; [exact G|].
  assert (Eb : j_st b = st) by (destruct G as (_ & -> & _); exact Es).
  assert (All : forall i p x d s, on_leaf st i p x -> d < n -> face_done b i (d, s)).
  { intros i p x d s O Hd. apply on_leaf_at in O as [_ O]. destruct (elem_at_cons n st p i C O) as (e & _ & _ & He & _).
    assert (K : forall is_def, e_def e = is_def -> In i (container st is_def)).
    { intros is_def D. unfold container. apply filter_In. split; [apply in_seq; assert (i < length (s_elems st)) by (apply nth_error_Some; congruence); lia|]. rewrite He, D. apply eqb_reflx. }
    destruct (e_def e) eqn:D; [apply F2; [rewrite Ea; now apply K|exact Hd]|]. eapply face_done_grow; [exact G2|]. apply F1; [rewrite Es; now apply K|exact Hd]. }
  intros i p x d s O Hd Cov. rewrite Eb in O, Cov. destruct (All i p x d s O Hd p x O Cov) as [K|(j & q & y & Oy & S & L)]; [exact K|].
  cbn [fst snd] in S. assert (Cy : covered_face n st y d (sgn (negb s))). { apply (Wh q y p x d (negb s)); auto; [now apply (on_leaf_occupied j)|now apply (on_leaf_occupied i)|now apply share_sym]. }
  assert (Nl : forall r z k, on_leaf st k r z -> share_face n d (sgn (negb s)) y z -> ~ length r < length q).
  { intros r z k Oz Sz Lr. assert (p = r); [|subst; lia]. apply (coarse_unique n (s_tree st) q y r z p x d (negb s)); auto; try apply C; try apply Oz; try apply Oy; try apply O; [now apply share_sym|lia]. }
  destruct (All j q y d (negb s) Oy Hd q y Oy Cy) as [(l & Hl & Hu)|(k & r & z & Oz & Sz & Lr)]; [|exfalso; eapply Nl; eauto].
  exists l. split; [exact Hl|]. cbn [fst snd] in Hu. rewrite <- (negb_involutive s). apply (joins_across l j q y d (negb s) i p x); auto; [|now apply share_sym].
  rewrite <- Eb. apply (wj_right n b (proj1 G2) l Hl).
Qed.
End Join.
