(** [purge]: the connections that are left are right for the elements that are left. *)
From Coq Require Import ZArith QArith List Bool Arith Lia.
From Verif Require Import Outcome Loop Tree_Model Tree_Spec Tree_Proofs Tree_Neighbors Tree_Flood Update_Model Update_Spec Update_Proofs1 Update_Proofs4 Update_Proofs9 Update_Proofs11 Trim_Model Trim_Spec
  Trim_Proofs4 Trim_Proofs7 Join_Model Join_Spec Join_Proofs1 Join_Proofs2.
Import ListNotations.
Local Open Scope nat_scope.

Lemma NoDup_app_inv {A} (l m : list A) : NoDup (l ++ m) -> NoDup l /\ NoDup m /\ forall a, In a l -> ~ In a m.
Proof.
  induction l as [|a l IH]; cbn [app]; intros H; [split; [constructor|split; [exact H|intros a []]]|]. inversion H as [|? ? H1 H2]. subst. destruct (IH H2) as (A1 & A2 & A3).
  split; [constructor; [|exact A1]; intros K; apply H1, in_or_app; now left|]. split; [exact A2|]. intros b [<-|Hb] K; [apply H1, in_or_app; now right|now apply (A3 b)].
Qed.

(** ** a path determines position and size *)
Lemma path_like n t t' p x x' : reachable n t -> reachable n t' -> subtree t p = Some x -> subtree t' p = Some x' -> like x x'.
Proof.
  intros R R'. destruct (reachable_wf n t R) as (W & L & K). destruct (reachable_wf n t' R') as (W' & L' & K').
  assert (E : like t t') by (split; congruence). clear R R' L L' K K'. revert t t' W W' E. induction p as [|k p IH]; intros t t' W W' E H H'; cbn [subtree] in *; [congruence|].
  destruct (nth_error (t_children t) k) as [ch|] eqn:Ek; [|discriminate]. destruct (nth_error (t_children t') k) as [ch'|] eqn:Ek'; [|discriminate].
  apply (IH ch ch'); auto; [apply (wf_child n t k ch W Ek)|apply (wf_child n t' k ch' W' Ek')|]. destruct t as [l c s e cs], t' as [l' c' s' e' cs']. cbn [t_children] in *.
  destruct E as [E1 E2]. cbn in E1, E2. subst l' c'. apply wf_inv in W as (_ & [->|[_ W]] & _); [now destruct k|]. apply wf_inv in W' as (_ & [->|[_ W']] & _); [now destruct k|].
  destruct (W k ch Ek) as [A1 A2]. destruct (W' k ch' Ek') as [B1 B2]. split; congruence.
Qed.

(** Old elements stay what they are, new ones are made for nodes. *)
Definition Keeps (a b : state) : Prop :=
  (forall i e, nth_error (s_elems a) i = Some e -> exists e', nth_error (s_elems b) i = Some e' /\ e_path e' = e_path e /\ e_def e' = e_def e) /\
  (forall i e', nth_error (s_elems b) i = Some e' -> length (s_elems a) <= i -> e_path e' <> None).
Lemma Keeps_one a b : length (s_elems b) = length (s_elems a) ->
  (forall i e, nth_error (s_elems a) i = Some e -> exists e', nth_error (s_elems b) i = Some e' /\ e_path e' = e_path e /\ e_def e' = e_def e) -> Keeps a b.
Proof. intros L H. split; [exact H|]. intros i e' E K. exfalso. assert (i < length (s_elems b)) by (apply nth_error_Some; congruence). lia. Qed.
Lemma Keeps_refl a : Keeps a a. Proof. apply Keeps_one; eauto. Qed.
Lemma Keeps_trans a b c : Keeps a b -> Keeps b c -> Keeps a c.
Proof.
  intros [H H'] [K K']. split.
  - intros i e E. destruct (H i e E) as (e1 & E1 & P1 & D1). destruct (K i e1 E1) as (e2 & E2 & P2 & D2). exists e2. split; [exact E2|]. split; congruence.
  - intros i e E L. destruct (nth_error (s_elems b) i) as [e1|] eqn:E1; [|apply (K' i e E); now apply nth_error_None]. destruct (K i e1 E1) as (e2 & E2 & P2 & _).
    specialize (H' i e1 E1 L). congruence.
Qed.

(** ** new numbers *)
Definition living (st : state) (i : nat) : Prop := exists e, nth_error (s_elems st) i = Some e /\ e_record e = 0%Z.
Lemma dead_living st i : dead st i = false <-> living st i.
Proof.
  unfold dead, living, record_of. destruct (nth_error (s_elems st) i) as [e|].
  - rewrite negb_false_iff, Z.eqb_eq. split; [eauto|]. intros (e' & E & H). congruence.
  - split; [discriminate|]. intros (e' & E & _). discriminate.
Qed.
Lemma new_number_nth st i e : nth_error (s_elems st) i = Some e -> e_record e = 0%Z -> nth_error (s_elems (purge st)) (new_number st i) = Some e.
Proof. intros H R. cbn [purge s_elems]. unfold new_number. apply filter_nth; [exact H|]. unfold alive. now rewrite R. Qed.

Definition mask (st : state) (i : nat) : bool := match nth_error (s_elems st) i with Some e => alive e | None => false end.
Lemma mask_living st i : mask st i = true <-> living st i.
Proof.
  unfold mask, living, alive. destruct (nth_error (s_elems st) i) as [e|]; [|split; [discriminate|intros (e & E & _); discriminate]].
  rewrite Z.eqb_eq. split; [eauto|]. intros (e' & E & H). congruence.
Qed.
Lemma mask_count st i : i <= length (s_elems st) -> length (filter (mask st) (seq 0 i)) = new_number st i.
Proof.
  unfold new_number. induction i as [|i IH]; intros H; [reflexivity|]. rewrite seq_S, filter_app, app_length, IH by lia. cbn [filter Nat.add].
  destruct (nth_error (s_elems st) i) as [e|] eqn:E; [|apply nth_error_None in E; lia].
  assert (F : firstn (S i) (s_elems st) = firstn i (s_elems st) ++ [e]).
  { clear - E. revert i E. induction (s_elems st) as [|a l IH]; intros [|i] E; cbn in *; try discriminate; [congruence|]. now rewrite (IH i E). }
  rewrite F, filter_app, app_length. unfold mask at 1. rewrite E. cbn [filter]. destruct (alive e); reflexivity.
Qed.
Lemma survivors_nth st k i : nth_error (survivors st) k = Some i <-> living st i /\ new_number st i = k.
Proof.
  unfold survivors. fold (mask st). split.
  - intros H. apply filter_nth_inv in H as (j & H1 & H2 & H3). assert (Lj : j < length (s_elems st)) by (rewrite <- (seq_length (length (s_elems st)) 0); apply nth_error_Some; congruence).
    apply (nth_error_nth _ _ 0) in H1. rewrite seq_nth in H1 by exact Lj. cbn in H1. subst j. split; [now apply mask_living|]. rewrite H3.
    rewrite <- mask_count by lia. f_equal. f_equal. replace (length (s_elems st)) with (i + (length (s_elems st) - i)) by lia. rewrite seq_app, firstn_app, seq_length, Nat.sub_diag. cbn [firstn].
    rewrite app_nil_r. symmetry. apply firstn_all2. rewrite seq_length. lia.
  - intros [Hl <-]. pose proof Hl as (e & He & _). assert (Li : i < length (s_elems st)) by (apply nth_error_Some; congruence). apply mask_living in Hl.
    assert (E : nth_error (seq 0 (length (s_elems st))) i = Some i) by (rewrite (nth_error_nth' _ 0) by (rewrite seq_length; exact Li); now rewrite seq_nth).
    pose proof (filter_nth (mask st) _ _ _ E Hl) as K. rewrite <- K. f_equal. rewrite <- mask_count by lia. f_equal. f_equal.
    replace (length (s_elems st)) with (i + (length (s_elems st) - i)) by lia. rewrite seq_app, firstn_app, seq_length, Nat.sub_diag. cbn [firstn].
    rewrite app_nil_r. symmetry. apply firstn_all2. rewrite seq_length. lia.
Qed.
Lemma new_number_inj st i j : living st i -> living st j -> new_number st i = new_number st j -> i = j.
Proof.
  intros Hi Hj E. assert (A : nth_error (survivors st) (new_number st i) = Some i) by now apply survivors_nth.
  assert (B : nth_error (survivors st) (new_number st i) = Some j) by now apply survivors_nth. congruence.
Qed.

Definition moved (st : state) (f : face) : face := (new_number st (fst (fst f)), snd (fst f), snd f).
Lemma uses_renumber st l : uses (renumber st l) = map (moved st) (uses l).
Proof. destruct l; cbn; try reflexivity. unfold moved at 1. cbn. f_equal. rewrite !map_map. reflexivity. Qed.
Lemma moved_inj st f g : living st (fst (fst f)) -> living st (fst (fst g)) -> moved st f = moved st g -> f = g.
Proof. destruct f as [[a b] c], g as [[a' b'] c']. unfold moved. cbn. intros H K E. injection E as E -> ->. apply (new_number_inj st) in E; congruence. Qed.

(** ** destroyed connections *)
Definition gone_link (n : nat) (st : state) (l : link) : bool := match erased n st l with Ok b => b | _ => false end.

Section Purge.
Variables (n : nat) (st0 st : state).
Hypothesis S0 : settled n st0.
Hypothesis C : Cons n st.
Hypothesis Kp : Keeps st0 st.
Hypothesis No : no_orphans st.
Hypothesis Rd : forall p i, elem_at st p = Some i -> record_of st i = 0%Z \/ record_of st i = 2%Z.
Let pst := purge st.

Lemma erased_ok l : erased n st l = Ok (gone_link n st l).
Proof.
  unfold gone_link. destruct l as [b a a' d s|b a fs d s|e d s|a o d s|fs]; try reflexivity. cbn [erased]. destruct (tree_of st e) as [p|] eqn:E; [|reflexivity].
  apply (tree_of_at n st e p C) in E. unfold elem_at in E. destruct (subtree (s_tree st) p) as [x|] eqn:Ex; [|discriminate].
  rewrite (find_neighbor_search n (s_tree st) p x _ Ex) by (unfold direct; rewrite map_length, seq_length; lia). cbn [bind].
  destruct (search _ _) as [q|]; [|reflexivity]. destruct (elem_at st q); reflexivity.
Qed.
Lemma split_ok ls : split_links n st ls = Ok (filter (fun l => negb (gone_link n st l)) ls, filter (gone_link n st) ls).
Proof.
  induction ls as [|l ls IH]; cbn [split_links filter]; [reflexivity|]. rewrite erased_ok, IH. cbn [bind]. destruct (gone_link n st l); reflexivity.
Qed.
Lemma kept_living l f : gone_link n st l = false -> In f (uses l) -> living st (fst (fst f)).
Proof.
  intros H Hf. pose proof (erased_ok l) as E. rewrite H in E.
  assert (G : existsb (fun f => dead st (fst (fst f))) (uses l) = false -> living st (fst (fst f))).
  { intros X. apply dead_living. destruct (dead st (fst (fst f))) eqn:D; [|reflexivity].
    assert (existsb (fun f => dead st (fst (fst f))) (uses l) = true) by (apply existsb_exists; eauto). congruence. }
  destruct l as [b a a' d s|b a fs d s|e d s|a o d s|fs]; cbn [erased] in E; try (apply G; congruence). clear G.
  destruct Hf as [<-|[]]. cbn [fst]. apply dead_living. destruct (tree_of st e) as [p|]; [|congruence]. apply bind_ok in E as (nb & _ & E).
  destruct nb as [q|]; [destruct (elem_at st q); congruence|congruence].
Qed.

(** ** what becomes of elements *)
Lemma pst_Cons : Cons n pst.
Proof. apply consistent_Cons, settled_consistent, purge_settled, consistent_Cons, C. Qed.
Lemma pst_elem p : elem_at pst p = match elem_at st p with Some i => if mask st i then Some (new_number st i) else None | None => None end.
Proof.
  unfold elem_at, pst. cbn [purge s_tree]. rewrite repair_subtree. destruct (subtree (s_tree st) p) as [[l c s e cs]|]; [|reflexivity]. cbn [option_map repair t_elem].
  destruct e as [z|]; [|reflexivity]. unfold mask. destruct (nth_error (s_elems st) (Z.to_nat z)) as [el|]; [|reflexivity]. destruct (alive el); [|reflexivity]. now rewrite Nat2Z.id.
Qed.
Lemma pst_records i e : nth_error (s_elems pst) i = Some e -> e_record e = 0%Z.
Proof. intros H. cbn [pst purge s_elems] in H. apply filter_nth_inv in H as (j & _ & H & _). unfold alive in H. now apply Z.eqb_eq. Qed.
Lemma pst_record p i : elem_at pst p = Some i -> record_of pst i <> 2%Z.
Proof.
  intros H. destruct (elem_at_cons n pst p i pst_Cons H) as (e & _ & _ & He & _). rewrite (record_of_nth _ _ _ He), (pst_records _ _ He). discriminate.
Qed.
Lemma pst_exists p : exists_at pst p = exists_at st p.
Proof.
  unfold exists_at. rewrite pst_elem. destruct (elem_at st p) as [i|] eqn:E; [|reflexivity].
  destruct (elem_at_cons n st p i C E) as (e & _ & _ & He & _). unfold mask. rewrite He. destruct (Rd p i E) as [R|R].
  - rewrite R. rewrite (record_of_nth _ _ _ He) in R. unfold alive. rewrite R. cbn [Z.eqb]. unfold record_of. unfold pst. rewrite (new_number_nth st i e He R), R. reflexivity.
  - rewrite R. rewrite (record_of_nth _ _ _ He) in R. unfold alive. rewrite R. reflexivity.
Qed.
Lemma pst_alike : alike st pst /\ alike pst st.
Proof.
  split; apply (alike_forget n); auto using pst_Cons; try (symmetry; apply pst_exists); try apply pst_exists.
  - apply repair_forget.
  - symmetry. apply repair_forget.
Qed.

Lemma moves i p x : on_leaf st0 i p x -> living st i -> exists x', on_leaf pst (new_number st i) p x' /\ like x x'.
Proof.
  intros [Lx (x0 & e & Hx & He & Hi & _)] (e1 & E1 & R1). destruct (proj1 Kp i e Hi) as (e2 & E2 & P2 & _). assert (e2 = e1) by congruence. subst e2.
  destruct (proj2 S0 p x0 _ Hx He) as (_ & j & e3 & Ej & E3 & P3). apply Nat2Z.inj in Ej. subst j. assert (e3 = e) by congruence. subst e3.
  destruct (No i e1 p E1) as (x1 & Hx1 & T1); [congruence|rewrite R1; discriminate|].
  assert (Ep : elem_at st p = Some i) by (unfold elem_at; now rewrite Hx1, T1, Nat2Z.id).
  assert (Eq : elem_at pst p = Some (new_number st i)). { rewrite pst_elem, Ep. destruct (mask st i) eqn:M; [reflexivity|]. assert (mask st i = true) by (apply mask_living; exists e1; auto). congruence. }
  exists (repair st x1). split.
  - apply (on_leaf_at n pst pst_Cons pst_record). split; [|exact Eq]. cbn [pst purge s_tree]. now rewrite repair_subtree, Hx1.
  - apply (path_like n (s_tree st0) (s_tree pst) p); [apply S0|apply pst_Cons|apply Lx|]. cbn [pst purge s_tree]. now rewrite repair_subtree, Hx1.
Qed.
Lemma moves_extruded i : is_extruded st0 i -> living st i -> is_extruded pst (new_number st i).
Proof.
  intros (e & He & P) (e1 & E1 & R1). destruct (proj1 Kp i e He) as (e2 & E2 & P2 & _). exists e1. split; [now apply new_number_nth|congruence].
Qed.
Lemma moves_deformed i : i < length (s_elems st0) -> living st i -> (deformed pst (new_number st i) <-> deformed st0 i).
Proof.
  intros L (e1 & E1 & R1). destruct (nth_error (s_elems st0) i) as [e|] eqn:E; [|apply nth_error_None in E; lia]. destruct (proj1 Kp i e E) as (e2 & E2 & _ & D2).
  unfold deformed, pst. rewrite (new_number_nth st i e1 E1 R1), E. split; intros (e' & K & D); injection K as <-; eexists; (split; [reflexivity|]); congruence.
Qed.
Lemma on_leaf_lt s i p x : on_leaf s i p x -> i < length (s_elems s).
Proof. intros [_ (x0 & e & _ & _ & H & _)]. apply nth_error_Some. congruence. Qed.

(** ** what becomes of connections *)
Hypothesis Bal : balanced n pst.
Hypothesis Wh : forall p x q y d s, occupied pst p x -> occupied pst q y -> d < n -> share_face n d (sgn s) x y -> covered_face n pst x d (sgn s).

Lemma like_boundary x x' d s : like x x' -> at_boundary x d s -> at_boundary x' d s.
Proof. intros K. unfold at_boundary. now rewrite (like_hi _ _ d K), (like_lo _ _ d K). Qed.
Lemma like_row d x x' y y' k : like x x' -> like y y' -> row_major n d x y k -> row_major n d x' y' k.
Proof. intros [A1 A2] [B1 B2] [H1 H2]. split; [congruence|]. intros i Hi Hd. specialize (H2 i Hi Hd). unfold coord in *. now rewrite <- A2, <- B2. Qed.

Lemma moves_right l : right n st0 l -> NoDup (uses l) -> (forall f, In f (uses l) -> living st (fst (fst f))) ->
  (forall i o d s p x, l = Ext i o d s -> on_leaf pst (new_number st i) p x -> ~ covered_face n pst x d (sgn s)) ->
  right n pst (renumber st l).
Proof.
  intros Hr ND Hl Hx. destruct l as [b a a' d s|b a fs d s|e d s|a o d s|fs]; cbn [right renumber uses] in *.
  - destruct Hr as (Hd & p & x & q & y & Ox & Oy & Lv & S & Hb & Hs). split; [exact Hd|].
    pose proof (Hl (a, d, s) (or_introl eq_refl)) as L1. pose proof (Hl (a', d, negb s) (or_intror (or_introl eq_refl))) as L2. cbn [fst] in L1, L2.
    destruct (moves a p x Ox L1) as (x' & Ox' & Kx). destruct (moves a' q y Oy L2) as (y' & Oy' & Ky). exists p, x', q, y'.
    split; [exact Ox'|]. split; [exact Oy'|]. split; [destruct Kx, Ky; congruence|]. split; [eapply like_share; eauto|].
    rewrite (moves_deformed a (on_leaf_lt _ _ _ _ Ox) L1), (moves_deformed a' (on_leaf_lt _ _ _ _ Oy) L2). auto.
  - destruct Hr as (Hd & p & x & Ox & Len & Hf & _ & Hb). split; [exact Hd|]. pose proof (Hl (a, d, s) (or_introl eq_refl)) as L1. cbn [fst] in L1.
    assert (Lf : forall f, In f fs -> living st f). { intros f H. apply (Hl (f, d, negb s)). right. apply in_map_iff. eauto. }
    destruct (moves a p x Ox L1) as (x' & Ox' & Kx). exists p, x'. split; [exact Ox'|]. split; [now rewrite map_length|].
    assert (Hf' : forall k f, nth_error (map (new_number st) fs) k = Some f -> exists q y, on_leaf pst f q y /\ share_face n d (sgn s) x' y /\ row_major n d x' y k).
    { intros k f H. rewrite nth_error_map in H. destruct (nth_error fs k) as [f0|] eqn:Ek; [|discriminate]. injection H as <-. destruct (Hf k f0 Ek) as (q & y & Oy & S & Rm).
      destruct (moves f0 q y Oy (Lf f0 (nth_error_In _ _ Ek))) as (y' & Oy' & Ky). exists q, y'. split; [exact Oy'|]. split; [eapply like_share; eauto|eapply like_row; eauto]. }
    split; [exact Hf'|]. split.
    + intros q y Ly S. destruct (nb_shape n (s_tree pst) p x' d s ltac:(apply pst_Cons) (proj1 Ox') Hd) as (l & E & _ & NDl & HI & _).
      assert (P : 2 ^ (n - 1) <> 0) by (apply Nat.pow_nonzero; lia). destruct fs as [|f0 fs0] eqn:Ef; [cbn in Len; lia|]. rewrite <- Ef in *.
      destruct (Hf' 0 (new_number st f0)) as (q0 & y0 & Oy0 & Sy0 & Rm0); [now rewrite Ef|].
      assert (Cov : covered_face n pst x' d (sgn s)). { apply (Wh p x' q0 y0 d s); auto; eapply on_leaf_occupied; eauto. }
      assert (HE : forall r, In r l -> exists z, occupied pst r z /\ share_face n d (sgn s) x' z). { intros r Hr. apply HI in Hr as (z & Lz & Sz). exists z. split; [apply Cov; auto|exact Sz]. }
      assert (Ll : forall r z, leaf_at (s_tree pst) r z -> t_level z = length r). { intros r z H. apply (level_length n (s_tree pst)); [apply pst_Cons|apply H]. }
      destruct (fine_group n (s_tree pst) p x' d s l ltac:(apply pst_Cons) (proj1 Ox') Hd E) as [Len' _].
      { intros r Hr. destruct (HE r Hr) as (z & Oz & Sz). destruct (Bal p x' r z (on_leaf_occupied _ _ _ _ Ox') Oz) as [B _]. destruct (B d (sgn s) Hd (sgn_unit s) Sz) as [B1 _].
        rewrite (Ll _ _ (proj1 Oz)), (Ll _ _ (proj1 Ox')) in B1. lia. }
      { exists q0. split; [apply HI; exists y0; split; [apply Oy0|exact Sy0]|]. destruct Rm0 as [Rm0 _]. rewrite (Ll _ _ (proj1 Oy0)), (Ll _ _ (proj1 Ox')) in Rm0. lia. }
      destruct (elems_at_all n pst pst_Cons l) as (es & _ & Les & K1 & K2 & K3).
      { intros r Hr. destruct (HE r Hr) as (z & Oz & _). destruct (occupied_on_leaf pst r z Oz) as (i & O). apply (on_leaf_at n pst pst_Cons pst_record) in O as [_ ->]. discriminate. }
      assert (Inc : incl es (map (new_number st) fs)).
      { apply NoDup_length_incl.
        - apply NoDup_cons_iff in ND as [_ ND]. apply NoDup_map_inv in ND. clear - ND Lf. induction ND as [|f fs H _ IH]; cbn [map]; constructor; [|apply IH; intros; apply Lf; now right].
          intros K. apply in_map_iff in K as (g & Eg & Hg). apply H. rewrite (new_number_inj st f g); auto; [apply Lf; now left|apply Lf; now right].
        - rewrite map_length. lia.
        - intros f H. apply In_nth_error in H as [k Hk]. destruct (Hf' k f Hk) as (r & z & Oz & Sz & _). assert (Hr : In r l) by (apply HI; exists z; split; [apply Oz|exact Sz]).
          destruct (K2 r Hr) as (g & G1 & G2). apply (on_leaf_at n pst pst_Cons pst_record) in Oz as [_ Oz]. assert (f = g) by congruence. now subst. }
      assert (Hq : In q l) by (apply HI; eauto). destruct (K2 q Hq) as (f & F1 & F2). exists f. split; [now apply Inc|]. apply (lives_at n pst f q pst_Cons). split; [exact F2|]. eapply pst_record; eauto.
    + rewrite Hb, (moves_deformed a (on_leaf_lt _ _ _ _ Ox) L1).
      assert (D : forall f, In f fs -> (deformed pst (new_number st f) <-> deformed st0 f)).
      { intros f H. apply In_nth_error in H as [k Hk]. destruct (Hf k f Hk) as (q & y & Oy & _). apply moves_deformed; [eapply on_leaf_lt; eauto|]. apply Lf. eapply nth_error_In; eauto. }
      split; intros [H1 H2]; (split; [exact H1|]).
      * intros f H. apply in_map_iff in H as (f0 & <- & H). apply (D f0 H), H2, H.
      * intros f H. apply (D f H), H2, in_map, H.
  - destruct Hr as (Hd & p & x & Ox & B). split; [exact Hd|]. destruct (moves e p x Ox (Hl _ (or_introl eq_refl))) as (x' & Ox' & Kx). exists p, x'. split; [exact Ox'|]. eapply like_boundary; eauto.
  - destruct Hr as (Hd & Eo & Ei). split; [exact Hd|]. split; [apply moves_extruded; [exact Eo|apply (Hl (o, d, negb s)); right; now left]|].
    pose proof (Hl (a, d, s) (or_introl eq_refl)) as L1. cbn [fst] in L1. destruct Ei as [(p & x & Ox & _)|Ei]; [left|right; now apply moves_extruded].
    destruct (moves a p x Ox L1) as (x' & Ox' & Kx). exists p, x'. split; [exact Ox'|]. eapply Hx; eauto.
  - intros f H. apply in_map_iff in H as (g & <- & H). cbn [fst]. apply moves_extruded; auto.
Qed.

Lemma same_link ls l l' f : NoDup (flat_map uses ls) -> In l ls -> In l' ls -> In f (uses l) -> In f (uses l') -> l = l'.
Proof.
  induction ls as [|a ls IH]; intros ND H H' F F'; [contradiction|]. cbn [flat_map] in ND. apply NoDup_app_inv in ND as (N1 & N2 & N3).
  destruct H as [->|H], H' as [->|H']; auto; exfalso; eapply N3; eauto; apply in_flat_map; eauto.
Qed.

Lemma purge_ok js js0 : j_st js0 = st0 -> j_st js = st -> j_links js = j_links js0 -> j_face js = j_face js0 -> well_joined n js0 ->
  (forall i o d s p x, In (Ext i o d s) (j_links js) -> living st i -> living st o -> on_leaf pst (new_number st i) p x -> ~ covered_face n pst x d (sgn s)) ->
  exists js', purge_all n js = Ok js' /\ j_st js' = pst /\ well_joined n js' /\
    j_links js' = map (renumber st) (filter (fun l => negb (gone_link n st l)) (j_links js)) /\
    j_extr js' = map (renumber st) (filter (fun l => negb (extr_erased st l)) (j_extr js)).
Proof.
  intros E0 Es El Ef [Wr Wo Wf] Hx. unfold purge_all. rewrite Es, split_ok. cbn [bind]. eexists. split; [reflexivity|]. cbn [j_st j_links j_extr]. split; [reflexivity|].
  split; [|split; reflexivity]. rewrite E0 in Wr. rewrite <- El in Wr, Wo.
  assert (Kl : forall l f, In l (filter (fun l => negb (gone_link n st l)) (j_links js)) -> In f (uses l) -> living st (fst (fst f))).
  { intros l f H Hf. apply filter_In in H as [_ H]. apply negb_true_iff in H. eapply kept_living; eauto. }
  assert (Nd : forall l, In l (j_links js) -> NoDup (uses l)).
  { clear - Wo. induction (j_links js) as [|a ls IH]; intros l H; [contradiction|]; cbn [flat_map] in Wo; apply NoDup_app_inv in Wo as (N1 & N2 & _). destruct H as [<-|H]; auto. }
  split; cbn [j_st j_links j_face].
  - intros l H. apply in_map_iff in H as (l0 & <- & H). pose proof H as H0. apply filter_In in H0 as [H0 _]. apply moves_right; auto; [intros f; now apply Kl|].
    intros i o d s p x -> O. eapply Hx; eauto; [apply (Kl _ (i, d, s) H); now left|apply (Kl _ (o, d, negb s) H); right; now left].
  - assert (Ndk : NoDup (flat_map uses (filter (fun l => negb (gone_link n st l)) (j_links js)))).
    { clear - Wo. induction (j_links js) as [|a ls IH]; [constructor|]. cbn [flat_map filter] in *. apply NoDup_app_inv in Wo as (N1 & N2 & N3).
      destruct (negb (gone_link n st a)); [|auto]. cbn [flat_map]. apply NoDup_app'; auto. intros f H K. apply (N3 f H). apply in_flat_map in K as (l & Hl & K).
      apply filter_In in Hl as [Hl _]. apply in_flat_map. eauto. }
    assert (Em : flat_map uses (map (renumber st) (filter (fun l => negb (gone_link n st l)) (j_links js))) = map (moved st) (flat_map uses (filter (fun l => negb (gone_link n st l)) (j_links js)))).
    { generalize (filter (fun l => negb (gone_link n st l)) (j_links js)). intros ls. induction ls as [|a ls IH]; [reflexivity|]. cbn [map flat_map]. now rewrite IH, uses_renumber, map_app. }
    rewrite Em. assert (Kf : forall f, In f (flat_map uses (filter (fun l => negb (gone_link n st l)) (j_links js))) -> living st (fst (fst f))).
    { intros f H. apply in_flat_map in H as (l & Hl & Hf). eapply Kl; eauto. }
    revert Ndk Kf. generalize (flat_map uses (filter (fun l => negb (gone_link n st l)) (j_links js))). clear. intros fs ND Kf.
    induction ND as [|f fs H _ IH]; cbn [map]; constructor; [|apply IH; intros; apply Kf; now right]. intros K. apply in_map_iff in K as (g & Eg & Hg). apply H.
    rewrite <- (moved_inj st g f); auto; apply Kf; [now right|now left].
  - intros f. rewrite Ef. split.
    + intros H. destruct (nth_error (survivors st) (fst (fst f))) as [i|] eqn:E; [|discriminate]. apply survivors_nth in E as [Li Ei]. apply andb_prop in H as [H1 H2].
      apply Wf in H1 as (l & Hl & Hf). rewrite <- El in Hl. apply negb_true_iff in H2. exists (renumber st l). split.
      * apply in_map, filter_In. split; [exact Hl|]. apply negb_true_iff. destruct (gone_link n st l) eqn:G; [|reflexivity]. exfalso.
        assert (X : existsb (fun l => existsb (face_eqb (i, snd (fst f), snd f)) (uses l)) (filter (gone_link n st) (j_links js)) = true); [|congruence].
        apply existsb_exists. exists l. split; [now apply filter_In|now apply existsb_face].
      * rewrite uses_renumber. apply in_map_iff. exists (i, snd (fst f), snd f). split; [|exact Hf]. unfold moved. cbn [fst snd]. rewrite Ei. now destruct f as [[? ?] ?].
    + intros (l' & H & Hf). cbn [j_links] in H. apply in_map_iff in H as (l & <- & H). rewrite uses_renumber in Hf. apply in_map_iff in Hf as (g & <- & Hg).
      pose proof (Kl l g H Hg) as Lg. unfold moved. cbn [fst snd]. rewrite (proj2 (survivors_nth st (new_number st (fst (fst g))) (fst (fst g)))) by auto.
      replace (fst (fst g), snd (fst g), snd g) with g by now destruct g as [[? ?] ?]. apply filter_In in H as [H0 G]. apply negb_true_iff in G. apply andb_true_intro. split.
      * apply Wf. exists l. rewrite <- El. auto.
      * apply negb_true_iff. destruct (existsb _ _) eqn:X; [|reflexivity]. exfalso. apply existsb_exists in X as (l1 & H1 & F1). apply existsb_face in F1. apply filter_In in H1 as [H1 G1].
        assert (l = l1) by (eapply same_link; eauto). congruence.
Qed.
End Purge.
