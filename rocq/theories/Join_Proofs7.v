(** New meshes, and what an update and [set_surface] keep. *)
From Coq Require Import ZArith QArith List Bool Arith Lia Permutation.
From Verif Require Import Outcome Loop ListUtil Tree_Model Tree_Spec Tree_Proofs Tree_Neighbors Tree_Flood Update_Model Update_Spec Update_Proofs1 Update_Proofs2 Update_Proofs3 Update_Proofs4
  Update_Proofs8 Update_Proofs9 Update_Proofs11 Update_Thm Trim_Model Trim_Spec Trim_Proofs3 Trim_Proofs4 Trim_Proofs6 Trim_Proofs7 Trim_Thm Join_Model Join_Spec Join_Proofs1 Join_Proofs2 Join_Proofs3
  Join_Proofs4 Join_Proofs5 Join_Proofs6.
Import ListNotations.
Local Open Scope nat_scope.

(** ** a new mesh *)
Lemma faces_of_In n d s : In (d, s) (faces_of n) <-> d < n.
Proof.
  unfold faces_of. rewrite in_flat_map. split.
  - intros (k & Hk & H). apply in_seq in Hk. cbn in H. destruct H as [H|[H|[]]]; injection H as <- _; lia.
  - intros H. exists d. split; [apply in_seq; lia|]. destruct s; cbn; auto.
Qed.
Lemma faces_of_NoDup n : NoDup (faces_of n).
Proof.
  unfold faces_of. generalize (seq_NoDup n 0). generalize (seq 0 n). intros l ND. induction ND as [|d l H _ IH]; [constructor|]. cbn [flat_map app]. constructor; [|constructor].
  - intros [K|K]; [discriminate|]. apply in_flat_map in K as (k & Hk & K). cbn in K. destruct K as [K|[K|[]]]; injection K as ->; [contradiction|discriminate].
  - intros K. apply in_flat_map in K as (k & Hk & K). cbn in K. destruct K as [K|[K|[]]]; injection K as ->; [discriminate|contradiction].
  - exact IH.
Qed.
Definition bound_links (l : list (nat * bool)) : list link := map (fun ds => Bnd 0 (fst ds) (snd ds)) l.
Lemma start_fold l : forall js, let js' := fold_left (fun js ds => add_link (Bnd 0 (fst ds) (snd ds)) js) l js in
  j_st js' = j_st js /\ j_extr js' = j_extr js /\ j_links js' = j_links js ++ bound_links l /\
  forall f, j_face js' f = true <-> j_face js f = true \/ In f (flat_map uses (bound_links l)).
Proof.
  induction l as [|ds l IH]; intros js; cbn [fold_left].
  - cbv zeta. split; [reflexivity|]. split; [reflexivity|]. split; [cbn; now rewrite app_nil_r|]. intros f. cbn. tauto.
  - destruct (IH (add_link (Bnd 0 (fst ds) (snd ds)) js)) as (A & B & C & D). cbv zeta in *. split; [exact A|]. split; [exact B|]. split; [rewrite C; cbn; now rewrite <- app_assoc|].
    intros f. rewrite D. cbn [add_link j_face]. rewrite orb_true_iff, existsb_face. cbn [bound_links map flat_map]. rewrite in_app_iff. fold (bound_links l). tauto.
Qed.
Lemma start_uses l : flat_map uses (bound_links l) = map (fun ds => (0, fst ds, snd ds)) l.
Proof. induction l as [|a l IH]; [reflexivity|]. cbn [bound_links map flat_map uses app]. fold (bound_links l). now rewrite IH. Qed.

Lemma start_leaf n i p x : on_leaf (start_mesh n) i p x -> i = 0 /\ p = [].
Proof.
  intros [[Hx _] (x0 & e & H0 & Ht & He & _)]. destruct p as [|k p]; [|destruct k; discriminate]. cbn in H0. injection H0 as <-. cbn in Ht. injection Ht as Ht. split; [lia|reflexivity].
Qed.
Lemma start_on_leaf n : exists x, on_leaf (start_mesh n) 0 [] x /\ forall d s, at_boundary x d s.
Proof.
  eexists. split.
  - split; [split; reflexivity|]. eexists. eexists. split; [reflexivity|]. split; [reflexivity|]. split; [reflexivity|]. cbn. lia.
  - intros d s. apply boundary_coord. cbn [update set_elem_node new_tree t_level coord t_coords]. unfold coord. cbn. rewrite nth_repeat. destruct s; reflexivity.
Qed.

Lemma start_sound n : sound n (start_joined n) /\ no_gap n (start_joined n) /\ j_extr (start_joined n) = [] /\ j_st (start_joined n) = start_mesh n.
Proof.
  destruct (start_fold (faces_of n) (mk_joined (start_mesh n) [] [] (fun _ => false))) as (A & B & C & D). cbv zeta in *. fold (start_joined n) in *. cbn [j_st j_extr j_links j_face app] in *.
  destruct (start_complete n) as (S1 & S2 & S3 & S4). rewrite start_uses in D. destruct (start_on_leaf n) as (x & O & Bx).
  assert (Con : forall d s, d < n -> connected (start_joined n) (0, d, s)).
  { intros d s H. exists (Bnd 0 d s). rewrite C. split; [|now left]. apply in_map_iff. exists (d, s). split; [reflexivity|]. now apply faces_of_In. }
  assert (W : well_joined n (start_joined n)).
  { split.
    - intros l H. rewrite C in H. apply in_map_iff in H as ([d s] & <- & H). apply faces_of_In in H. rewrite A. split; [exact H|]. exists [], x. auto.
    - rewrite C, start_uses. apply FinFun.Injective_map_NoDup; [|apply faces_of_NoDup]. intros [d s] [d' s'] H. cbn in H. congruence.
    - intros f. rewrite D. unfold connected. rewrite C. split.
      + intros [H|H]; [discriminate|]. apply in_map_iff in H as (ds & <- & H). exists (Bnd 0 (fst ds) (snd ds)). split; [|now left]. unfold bound_links. apply in_map_iff. eauto.
      + intros (l & H & Hf). right. rewrite <- start_uses. apply in_flat_map. eauto. }
  split; [|split; [|auto]].
  - split; rewrite ?A; auto.
    + intros p y q z (Ly & (iy & Hy)) (Lz & (iz & Hz)). destruct (start_leaf n iy p y (conj Ly Hy)) as [_ ->]. destruct (start_leaf n iz q z (conj Lz Hz)) as [_ ->].
      assert (y = z) by (destruct Ly, Lz; congruence). subst z. split; intros; lia.
    + intros [|[|i]] e H; cbn in H; try discriminate. injection H as <-. reflexivity.
    + intros i p y d s Oy Hd _. rewrite A in Oy. apply start_leaf in Oy as [-> _]. auto.
    + intros i o d s H. rewrite C in H. apply in_map_iff in H as (ds & H & _). discriminate.
    + intros l H. rewrite B in H. destruct H.
  - intros i d s H Hd. rewrite A in H. cbn in H. assert (i = 0) by lia. subst i. auto.
Qed.

(** ** what updates keep *)
Lemma leaf_not_extruded n st i p x : settled n st -> on_leaf st i p x -> is_extruded st i -> False.
Proof.
  intros [_ S] [_ (y & e & Hy & Ht & He & _)] (e' & He' & N). destruct (S p y _ Hy Ht) as (_ & j & ej & Ej & Hj & Pj). apply Nat2Z.inj in Ej. subst j. congruence.
Qed.
Lemma leaf_path n st i p x : settled n st -> on_leaf st i p x -> exists e, nth_error (s_elems st) i = Some e /\ e_path e = Some p.
Proof.
  intros [_ S] [_ (y & e & Hy & Ht & He & _)]. destruct (S p y _ Hy Ht) as (_ & j & ej & Ej & Hj & Pj). apply Nat2Z.inj in Ej. subst j. eauto.
Qed.

(** A face with a connection has elements or the boundary behind it, or an extruded element. *)
Lemma joined_face n js i p x d s : settled n (j_st js) -> well_joined n js -> extrudable n (j_st js) -> (forall i e, nth_error (s_elems (j_st js)) i = Some e -> e_record e = 0%Z) ->
  on_leaf (j_st js) i p x -> d < n -> connected js (i, d, s) -> covered_face n (j_st js) x d (sgn s) \/ exists o, In (Ext i o d s) (j_links js).
Proof.
  intros S0 Wj Ex R O Hd (l & Hl & Hf). pose proof (wj_right n js Wj l Hl) as Hr. pose proof (settled_consistent n _ S0) as C0. apply consistent_Cons in C0 as C.
  assert (Rc : forall p i, elem_at (j_st js) p = Some i -> record_of (j_st js) i <> 2%Z).
  { intros p0 i0 H. destruct (elem_at_cons n _ p0 i0 C H) as (e & _ & _ & H1 & _). rewrite (record_of_nth _ _ _ H1), (R _ _ H1). discriminate. }
  assert (Wh : forall j q y, on_leaf (j_st js) j q y -> share_face n d (sgn s) x y -> covered_face n (j_st js) x d (sgn s)).
  { intros j q y Oy S. apply (ex_face n _ Ex p x q y d (sgn s)); auto; [eapply on_leaf_occupied; eauto..|apply sgn_unit]. }
  destruct l as [b a a' d0 s0|b a fs d0 s0|e d0 s0|a o d0 s0|fs]; cbn [right uses] in Hr, Hf.
  - left. destruct Hr as (_ & p1 & x1 & q1 & y1 & O1 & O2 & _ & S1 & _). destruct Hf as [H|[H|[]]]; injection H as <- <- <-.
    + destruct (on_leaf_inj n _ C Rc _ _ _ _ _ O O1) as [<- <-]. eapply Wh; eauto.
    + destruct (on_leaf_inj n _ C Rc _ _ _ _ _ O O2) as [<- <-]. apply (Wh _ _ _ O1). now apply share_sym.
  - left. destruct Hr as (_ & p1 & x1 & O1 & Len & Hr & _). destruct Hf as [H|H].
    + injection H as <- <- <-. destruct (on_leaf_inj n _ C Rc _ _ _ _ _ O O1) as [<- <-]. destruct fs as [|f fs]; [cbn in Len; assert (2 ^ (n - 1) <> 0) by (apply Nat.pow_nonzero; lia); lia|].
      destruct (Hr 0 f eq_refl) as (q & y & Oy & S & _). eapply Wh; eauto.
    + apply in_map_iff in H as (f & H & Hin). injection H as <- <- <-. apply In_nth_error in Hin as [k Hk]. destruct (Hr k f Hk) as (q & y & Oy & S & _).
      destruct (on_leaf_inj n _ C Rc _ _ _ _ _ O Oy) as [<- <-]. apply (Wh _ _ _ O1). now apply share_sym.
  - left. destruct Hr as (_ & p1 & x1 & O1 & B). destruct Hf as [H|[]]. injection H as <- <- <-. destruct (on_leaf_inj n _ C Rc _ _ _ _ _ O O1) as [<- <-].
    apply (no_neighbor n (s_tree (j_st js)) p x d0 s0) in B; auto; [|apply C|apply O]. destruct (nb_shape n (s_tree (j_st js)) p x d0 s0 ltac:(apply C) ltac:(apply O) Hd) as (l & E & _ & _ & HI & _).
    assert (l = []) by congruence. subst l. intros q y Ly S. exfalso. apply (HI q). eauto.
  - destruct Hf as [H|[H|[]]]; injection H as <- <- <-; [eauto|]. exfalso. destruct Hr as (_ & Xo & _). eapply leaf_not_extruded; eauto.
  - exfalso. eapply leaf_not_extruded; [exact S0|exact O|]. apply (Hr _ Hf).
Qed.

Lemma bare_face n js i p x d s : settled n (j_st js) -> well_joined n js -> extrudable n (j_st js) -> (forall i e, nth_error (s_elems (j_st js)) i = Some e -> e_record e = 0%Z) ->
  on_leaf (j_st js) i p x -> d < n -> ~ covered_face n (j_st js) x d (sgn s) -> connected js (i, d, s) -> exists o, In (Ext i o d s) (j_links js).
Proof. intros S0 Wj Ex R O Hd Nc C. destruct (joined_face n js i p x d s S0 Wj Ex R O Hd C) as [K|K]; [contradiction|exact K]. Qed.

Lemma update_keeps n surf away order ref unref js fuel js' st1 : 2 <= n -> (forall k st, some_order st (order k st)) -> sound n js ->
  update_mesh fuel n surf ref unref (extr_pairs js) (j_st js) = Ok st1 -> no_orphans st1 -> update_joined fuel n surf away order ref unref js = Ok js' ->
  rejoined n st1 js' /\ (one_layer js -> no_dangling js' /\ one_layer js') /\ (filled st1 -> filled (j_st js')) /\ (j_extr js = [] -> j_extr js' = []) /\
  ((forall i e, nth_error (s_elems (j_st js)) i = Some e -> e_path e <> None) -> forall i e, nth_error (s_elems (j_st js')) i = Some e -> e_path e <> None) /\
  exposed_deformed n (j_st js') /\ ((forall i, is_extruded (j_st js) i -> ref i = true -> unref i = true) -> no_dangling js') /\
  (one_layer js -> rooted js -> rooted js').
Proof.
  intros Hn Ho [S0 Lk Bl Rc Wj Al Ls Nd] E1 No E. unfold update_joined in E. rewrite E1 in E. cbn [bind] in E. destruct (update_ready _ _ _ _ _ _ _ _ S0 E1) as (C1 & B1 & R1).
  pose proof (Keeps_update _ _ _ _ _ _ _ _ E1) as K1.
  destruct (finish_good n js Hn S0 Wj Ls Nd away order Ho st1 fuel js' C1 R1 No B1 K1 E) as (st2 & Rj & C2 & K2 & N2 & P1 & Rd & P2 & P3 & P4 & P5 & P6 & P7 & P8).
  split; [exact Rj|]. split; [|split; [exact P6|split; [intros X; rewrite P2, X; reflexivity|split; [|split; [exact P7|split]]]]].
  - intros Ol. assert (Pair : forall i o d s, In (Ext i o d s) (j_extr js) -> In (o, i) (extr_pairs js)).
    { intros i o d s H. unfold extr_pairs. apply in_flat_map. exists (Ext i o d s). split; [exact H|now left]. }
    assert (Liv : forall i o d s, In (Ext i o d s) (j_extr js) -> extr_erased st2 (Ext i o d s) = false -> living st2 i /\ living st2 o).
    { intros i o d s H He. destruct (Nd _ H) as [Hl _].
      unfold extr_erased in He. cbn [uses existsb fst] in He. apply orb_false_elim in He as [He1 He2]. rewrite orb_false_r in He2. apply Z.eqb_neq in He1, He2.
      destruct (wj_right n js Wj _ Hl) as (_ & Xo & _). destruct (Ol i o d s Hl) as (p & x & O). split.
      - destruct (leaf_path n _ i p x S0 O) as (e & He & Pe). destruct (proj1 (Keeps_trans _ _ _ K1 K2) i e He) as (e2 & G2 & P2' & _). exists e2. split; [exact G2|].
        rewrite (record_of_nth _ _ _ G2) in He1. destruct (N2 i e2 p G2) as (x2 & H2 & T2); [congruence|exact He1|].
        destruct (Rd p i) as [Q|Q]; [unfold elem_at; now rewrite H2, T2, Nat2Z.id|rewrite (record_of_nth _ _ _ G2) in Q; exact Q|rewrite (record_of_nth _ _ _ G2) in Q; contradiction].
      - assert (Z0 : record_of st2 o = 0%Z).
        { destruct (P5 o (extruded_Keeps _ _ o K1 Xo)) as [Q|Q]; [|contradiction].
          destruct (outer_records n surf ref unref (extr_pairs js) (j_st js) fuel st1 i o p x S0 E1 (Pair _ _ _ _ H) Xo) as [Z|[Z|Z]]; auto.
          - intros c Hc. unfold extr_pairs in Hc. apply in_flat_map in Hc as (l & Hc & Hd). destruct (Nd _ Hc) as [Hl' (i' & o' & d' & s' & ->)]. destruct Hd as [Hd|[]]. injection Hd as -> ->.
            destruct (Ol _ _ _ _ Hl') as (p' & x' & O'). eapply leaf_not_extruded; eauto.
          - congruence.
          - congruence.
          - exfalso. apply He2. apply (P4 i o d s H Z). }
        unfold record_of in Z0. destruct (nth_error (s_elems st2) o) as [e2|] eqn:G2; [|discriminate]. exists e2. auto. }
    assert (Ndj : no_dangling js').
    { intros l H. rewrite P2 in H. apply in_map_iff in H as (l0 & <- & H). apply filter_In in H as [H He]. apply negb_true_iff in He. destruct (Nd _ H) as [Hl (i & o & d & s & ->)].
      split; [|cbn [renumber]; eauto]. apply (P3 _ Hl). destruct (Liv i o d s H He) as [L1 L2]. apply dead_living in L1, L2. unfold gone_link, erased. cbn [uses existsb fst]. now rewrite L1, L2. }
    split; [exact Ndj|]. intros i o d s H. pose proof Rj as (W & _ & Ls' & _). destruct (wj_right n js' W _ H) as (_ & _ & [(p & x & O & _)|X]); [eauto|exfalso].
    apply Ls' in H. rewrite P2 in H. apply in_map_iff in H as (l0 & El & H). apply filter_In in H as [H He]. apply negb_true_iff in He. destruct (Nd _ H) as [Hl (i0 & o0 & d0 & s0 & ->)].
    cbn [renumber] in El. injection El as <- <- <- <-. destruct (Liv _ _ _ _ H He) as [(e & G & Re) _]. rewrite P1 in X. destruct X as (e' & G' & X). rewrite (new_number_nth st2 i0 e G Re) in G'. injection G' as <-.
    destruct (Ol _ _ _ _ Hl) as (p & x & O). destruct (leaf_path n _ i0 p x S0 O) as (e0 & He0 & Pe). destruct (proj1 (Keeps_trans _ _ _ K1 K2) i0 e0 He0) as (e2 & G2 & P2' & _). congruence.
  - intros Hp i e H. rewrite P1 in H. cbn [purge s_elems] in H. apply filter_nth_inv in H as (j & Hj & _ & _). pose proof (Keeps_trans _ _ _ K1 K2) as [Q1 Q2].
    destruct (nth_error (s_elems (j_st js)) j) as [e0|] eqn:E0.
    + destruct (Q1 j e0 E0) as (e' & G & P' & _). rewrite Hj in G. injection G as <-. rewrite P'. eauto.
    + apply nth_error_None in E0. apply (Q2 j e); auto.
  - intros Hq l H. rewrite P2 in H. apply in_map_iff in H as (l0 & <- & H). apply filter_In in H as [H He]. apply negb_true_iff in He. destruct (Nd _ H) as [Hl (i & o & d & s & ->)].
    split; [|cbn [renumber]; eauto]. apply (P3 _ Hl). unfold extr_erased in He. cbn [uses existsb fst] in He. apply orb_false_elim in He as [He1 He2]. rewrite orb_false_r in He2. apply Z.eqb_neq in He1, He2.
    assert (Qx : forall k, is_extruded (j_st js) k -> record_of st2 k <> 2%Z -> record_of st2 k = 0%Z).
    { intros k Xk Nk. destruct (P5 k (extruded_Keeps _ _ k K1 Xk)) as [Q|Q]; [|contradiction].
      destruct (quiet_records n surf ref unref (extr_pairs js) (j_st js) fuel st1 k S0 E1) as [Z|Z]; auto; [|congruence..].
      intros c o0 Hc. unfold extr_pairs in Hc. apply in_flat_map in Hc as (l & Hc & Hd). destruct (Nd _ Hc) as [Hl' (i' & o' & d' & s' & ->)]. destruct Hd as [Hd|[]]. injection Hd as -> ->.
      apply (wj_right n js Wj _ Hl'). }
    destruct (wj_right n js Wj _ Hl) as (_ & Xo & Own). pose proof (Qx o Xo He2) as Zo.
    assert (Zi : record_of st2 i = 0%Z).
    { destruct Own as [(p & x & O & _)|Xi]; [|auto]. destruct (leaf_path n _ i p x S0 O) as (e & He & Pe). destruct (proj1 (Keeps_trans _ _ _ K1 K2) i e He) as (e2 & G2 & P2' & _).
      rewrite (record_of_nth _ _ _ G2) in He1. destruct (N2 i e2 p G2) as (x2 & H2 & T2); [congruence|exact He1|].
      destruct (Rd p i) as [Q|Q]; [unfold elem_at; now rewrite H2, T2, Nat2Z.id|exact Q|rewrite (record_of_nth _ _ _ G2) in Q; contradiction]. }
    unfold gone_link, erased. cbn [uses existsb fst]. unfold dead. now rewrite Zi, Zo.
  - intros Ol Rt o' (e' & He' & Pe'). rewrite P1 in He'. cbn [purge s_elems] in He'. pose proof (Keeps_trans _ _ _ K1 K2) as [Q1 Q2].
    apply filter_nth_inv in He' as (o & Ho' & Av & No').
    assert (Xo : is_extruded (j_st js) o).
    { destruct (nth_error (s_elems (j_st js)) o) as [e0|] eqn:E0; [|apply nth_error_None in E0; exfalso; eapply (Q2 o); eauto]. exists e0. split; [exact E0|]. destruct (Q1 o e0 E0) as (e2 & G & P' & _). congruence. }
    destruct (Rt o Xo) as (i & d & s & Hl). destruct (Ol i o d s Hl) as (p & x & O). destruct (leaf_path n _ i p x S0 O) as (e & He & Pe). destruct (Q1 i e He) as (e2 & G2 & P2' & _).
    assert (Ro : record_of st2 o = 0%Z) by (rewrite (record_of_nth _ _ _ Ho'); unfold alive in Av; now apply Z.eqb_eq in Av).
    assert (Ri : e_record e2 <> 2%Z). { intros R. rewrite (P8 i o d s e2 (Ls _ _ _ _ Hl) G2 ltac:(congruence) R) in Ro. discriminate. }
    assert (Zi : record_of st2 i = 0%Z).
    { destruct (N2 i e2 p G2) as (x2 & H2 & T2); [congruence|exact Ri|]. destruct (Rd p i) as [Q|Q]; [unfold elem_at; now rewrite H2, T2, Nat2Z.id|exact Q|]. rewrite (record_of_nth _ _ _ G2) in Q. contradiction. }
    exists (new_number st2 i), d, s. replace o' with (new_number st2 o); [apply (P3 _ Hl); unfold gone_link, erased; cbn [uses existsb fst]; unfold dead; now rewrite Zi, Ro].
Qed.

Lemma update_ends n surf away order ref unref js fuel st1 : 2 <= n -> (forall k st, some_order st (order k st)) -> sound n js ->
  update_mesh fuel n surf ref unref (extr_pairs js) (j_st js) = Ok st1 -> no_orphans st1 ->
  exists fuel0, forall fuel, fuel0 <= fuel -> exists js', update_joined fuel n surf away order ref unref js = Ok js'.
Proof.
  intros Hn Ho [S0 Lk Bl Rc Wj Al Ls Nd] E1 No. destruct (update_ready _ _ _ _ _ _ _ _ S0 E1) as (C1 & B1 & R1). pose proof (Keeps_update _ _ _ _ _ _ _ _ E1) as K1.
  destruct (finish_ends n js Hn S0 Wj Ls Nd away order Ho st1 C1 R1 No B1 K1) as (f0 & H). exists (f0 + fuel). intros k Hk. unfold update_joined.
  rewrite (update_fuel n surf ref unref (extr_pairs js) (j_st js) fuel st1 E1 k) by lia. cbn [bind]. apply H. lia.
Qed.

(** ** [set_surface] *)
Lemma same_leaf st st' p x : same_mesh st st' -> subtree (s_tree st') p = Some x -> exists x', subtree (s_tree st) p = Some x' /\ like x x' /\ t_elem x' = t_elem x /\ (t_children x' = [] <-> t_children x = []).
Proof.
  intros [F _] H. destruct (subtree_same _ (s_tree st) p x F H) as (x' & H' & E). exists x'. split; [exact H'|]. destruct x as [l c s e cs], x' as [l' c' s' e' cs']. cbn in E. injection E as -> -> -> E.
  split; [split; reflexivity|]. split; [reflexivity|]. cbn. destruct cs, cs'; try discriminate; split; auto; discriminate.
Qed.
Lemma surface_first n surf start fuel js st1 : sound n js -> set_surface fuel n surf start (j_st js) = Ok st1 ->
  consistent n st1 /\ ready st1 /\ no_orphans st1 /\ balanced n st1 /\ Keeps (j_st js) st1.
Proof.
  intros [S0 Lk Bl Rc Wj Al Ls Nd] E. destruct (surface_ready n surf start fuel _ _ S0 E) as [C1 R1]. destruct (set_surface_same n surf start fuel _ _ E (proj1 S0)) as [Sm Re].
  split; [exact C1|]. split; [exact R1|]. pose proof (Keeps_set_surface _ _ _ _ _ _ E) as K. split; [|split; [|exact K]].
  - intros i e p He Pe _. assert (L : i < length (s_elems (j_st js))). { destruct Sm as [_ P]. apply (f_equal (@length _)) in P. rewrite !map_length in P. rewrite <- P. apply nth_error_Some. congruence. }
    destruct (nth_error (s_elems (j_st js)) i) as [e0|] eqn:E0; [|apply nth_error_None in E0; lia]. destruct (proj1 K i e0 E0) as (e' & G & P' & _). assert (e' = e) by congruence. subst e'.
    destruct (Lk i e0 p E0) as (x & Hx & Ht); [congruence|]. assert (Sm' : same_mesh st1 (j_st js)) by (destruct Sm; split; congruence).
    destruct (same_leaf _ _ p x Sm' Hx) as (x' & Hx' & _ & Ht' & _). exists x'. split; [exact Hx'|congruence].
  - assert (Oc : forall p x, occupied st1 p x -> exists x', occupied (j_st js) p x' /\ like x x').
    { intros p x [[Hx Hc] (i & y & e & Hy & Ht & _ & _)]. assert (y = x) by congruence. subst y. destruct (same_leaf _ _ p x Sm Hx) as (x' & Hx' & Lx & Ht' & Hc'). exists x'. split; [|exact Lx].
      split; [split; [exact Hx'|now apply Hc']|]. destruct (proj2 S0 p x' (Z.of_nat i) Hx' ltac:(congruence)) as (_ & j & e' & Ej & Hj & _). apply Nat2Z.inj in Ej. subst j. exists i, x', e'.
      split; [exact Hx'|]. split; [congruence|]. split; [exact Hj|]. rewrite (Rc _ _ Hj). discriminate. }
    intros p x q y Ox Oy. destruct (Oc p x Ox) as (x' & Ox' & [L1 L1']). destruct (Oc q y Oy) as (y' & Oy' & [L2 L2']). destruct (Bl p x' q y' Ox' Oy') as [B1 B2]. rewrite L1, L2. split.
    + intros d s Hd Hs S. apply (B1 d s Hd Hs). eapply like_share; [| |exact S]; split; auto.
    + intros dir Hd S. apply (B2 dir Hd). eapply like_touches; [| |exact S]; split; auto.
Qed.

Lemma surface_as_finish fuel n surf start away order js : j_extr js = [] ->
  surface_joined fuel n surf start away order js = let! st := set_surface fuel n surf start (j_st js) in finish_update fuel n away order (mk_joined st (j_links js) (j_extr js) (j_face js)).
Proof. intros E. unfold surface_joined, finish_update. cbn [j_st j_links j_extr j_face]. rewrite E. cbn [ofold bind]. reflexivity. Qed.

Lemma surface_keeps n surf start away order js fuel js' : 2 <= n -> (forall k st, some_order st (order k st)) -> sound n js -> j_extr js = [] ->
  surface_joined fuel n surf start away order js = Ok js' -> (exists st1, set_surface fuel n surf start (j_st js) = Ok st1 /\ rejoined n st1 js') /\ sound n js' /\ j_extr js' = [] /\ exposed_deformed n (j_st js') /\
  ((forall i e, nth_error (s_elems (j_st js)) i = Some e -> e_path e <> None) -> forall i e, nth_error (s_elems (j_st js')) i = Some e -> e_path e <> None).
Proof.
  intros Hn Ho Sd Xe E. rewrite surface_as_finish in E by exact Xe. apply bind_ok in E as (st1 & E1 & E). destruct (surface_first n surf start fuel js st1 Sd E1) as (C1 & R1 & N1 & B1 & K1).
  destruct Sd as [S0 Lk Bl Rc Wj Al Ls Nd].
  destruct (finish_good n js Hn S0 Wj Ls Nd away order Ho st1 fuel js' C1 R1 N1 B1 K1 E) as (st2 & Rj & C2 & K2 & N2 & P1 & Rd & P2 & P3 & P4 & P5 & P6 & P7 & P8).
  rewrite Xe in P2. cbn in P2. split; [eauto|]. split; [|split; [exact P2|split; [exact P7|]]].
  - destruct Rj as (W & A & L & S' & Lk' & B' & _ & R' & _). split; auto. intros l H. rewrite P2 in H. destruct H.
  - intros Hp i e H. rewrite P1 in H. cbn [purge s_elems] in H. apply filter_nth_inv in H as (j & Hj & _ & _). pose proof (Keeps_trans _ _ _ K1 K2) as [Q1 Q2].
    destruct (nth_error (s_elems (j_st js)) j) as [e0|] eqn:E0.
    + destruct (Q1 j e0 E0) as (e' & G & P' & _). rewrite Hj in G. injection G as <-. rewrite P'. eauto.
    + apply nth_error_None in E0. apply (Q2 j e); auto.
Qed.
Lemma surface_ends n surf start away order js fuel st1 : 2 <= n -> (forall k st, some_order st (order k st)) -> sound n js -> j_extr js = [] ->
  (forall fuel', fuel <= fuel' -> set_surface fuel' n surf start (j_st js) = Ok st1) ->
  exists fuel0, forall fuel, fuel0 <= fuel -> exists js', surface_joined fuel n surf start away order js = Ok js'.
Proof.
  intros Hn Ho Sd Xe E1. destruct (surface_first n surf start fuel js st1 Sd (E1 fuel (le_n _))) as (C1 & R1 & N1 & B1 & K1). destruct Sd as [S0 Lk Bl Rc Wj Al Ls Nd].
  destruct (finish_ends n js Hn S0 Wj Ls Nd away order Ho st1 C1 R1 N1 B1 K1) as (f0 & H). exists (f0 + fuel). intros k Hk. rewrite surface_as_finish by exact Xe.
  rewrite (E1 k) by lia. cbn [bind]. apply H. lia.
Qed.

(** ** without a surface *)
Definition plain (n : nat) (js : joined) : Prop := sound n js /\ covered (j_st js) /\ no_surface (j_st js) /\ j_extr js = [] /\
  forall i e, nth_error (s_elems (j_st js)) i = Some e -> e_path e <> None.
Lemma plain_start n : plain n (start_joined n).
Proof.
  destruct (start_sound n) as (S & _ & X & E). destruct (start_complete n) as (_ & S2 & _ & S4). split; [exact S|]. rewrite E. split; [exact S2|]. split; [exact S4|]. split; [exact X|].
  intros [|[|i]] e H; cbn in H; try discriminate. injection H as <-. discriminate.
Qed.
Lemma plain_gap n js : plain n js -> no_gap n js.
Proof.
  intros ([S0 Lk Bl Rc Wj Al Ls Nd] & Cv & _ & _ & Pa) i d s Hi Hd. destruct (nth_error (s_elems (j_st js)) i) as [e|] eqn:E; [|apply nth_error_None in E; lia].
  destruct (e_path e) as [p|] eqn:Ep; [|exfalso; eapply Pa; eauto]. destruct (Lk i e p E Ep) as (x & Hx & Ht). destruct (proj2 S0 p x _ Hx Ht) as (Lx & _).
  assert (Oc : forall q y, leaf_at (s_tree (j_st js)) q y -> occupied (j_st js) q y).
  { intros q y Ly. split; [exact Ly|]. destruct (t_elem y) as [z|] eqn:Ez; [|exfalso; eapply Cv; eauto]. destruct (proj2 S0 q y z (proj1 Ly) Ez) as (_ & j & ej & -> & Hj & _).
    exists j, y, ej. split; [apply Ly|]. split; [exact Ez|]. split; [exact Hj|]. rewrite (Rc _ _ Hj). discriminate. }
  apply (Al i p x d s); [|exact Hd|intros q y Ly _; auto]. split; [split; auto|]. exists x, e. split; [exact Hx|]. split; [exact Ht|]. split; [exact E|]. rewrite (Rc _ _ E). discriminate.
Qed.
Lemma plain_update n surf away order ref unref js : 2 <= n -> (forall k st, some_order st (order k st)) -> (forall q, surf q = false) -> plain n js ->
  (exists fuel0, forall fuel, fuel0 <= fuel -> exists js', update_joined fuel n surf away order ref unref js = Ok js') /\
  forall fuel js', update_joined fuel n surf away order ref unref js = Ok js' -> plain n js'.
Proof.
  intros Hn Ho Sf (Sd & Cv & Ns & Xe & Pa). pose proof Sd as [S0 Lk Bl Rc Wj Al Ls Nd]. split.
  - destruct (update_complete n surf ref unref (extr_pairs js) (j_st js) S0 Cv Lk Ns Sf) as (f0 & H). destruct (H f0 (le_n _)) as (st1 & E1 & _ & F & O & _). eapply update_ends; eauto.
  - intros fuel js' E. pose proof E as E0. unfold update_joined in E0. apply bind_ok in E0 as (st1 & E1 & _). destruct (update_orphans_partial n surf ref unref (extr_pairs js) (j_st js) fuel st1 S0 Cv Lk Ns Sf E1) as [No Fi].
    destruct (update_keeps n surf away order ref unref js fuel js' st1 Hn Ho Sd E1 No E) as (Rj & _ & Kf & Kx & Kp & _). destruct Rj as (W & A & L & S' & Lk' & B' & _ & R' & Sn).
    split; [|split; [|split; [|split; [exact (Kx Xe)|exact (Kp Pa)]]]].
    + split; auto. intros l H. rewrite (Kx Xe) in H. destruct H.
    + intros p x Lx. destruct (Kf Fi p x Lx) as (i & y & e & Hy & Ht & _). destruct Lx. congruence.
    + intros p x Hx. destruct (proj2 Sn p (ex_intro _ x Hx)) as (x1 & H1). destruct (proj1 Sn p x1 H1) as (x2 & H2 & _ & _ & St & _). assert (x2 = x) by congruence. subst x2. rewrite St.
      destruct (update_complete n surf ref unref (extr_pairs js) (j_st js) S0 Cv Lk Ns Sf) as (f0 & H). destruct (H (f0 + fuel) ltac:(lia)) as (st2 & E2 & _ & _ & _ & N2 & _).
      rewrite (update_fuel n surf ref unref (extr_pairs js) (j_st js) fuel st1 E1 (f0 + fuel)) in E2 by lia. injection E2 as <-. eapply N2; eauto.
Qed.
