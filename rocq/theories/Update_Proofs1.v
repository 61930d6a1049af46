(** Effects of the tree operations on what is known about a node; invariants of the primitive operations. *)
From Coq Require Import ZArith List Bool Arith Lia FinFun.
From Verif Require Import Outcome Loop Tree_Model Tree_Spec Tree_Proofs Tree_Neighbors Tree_Flood Update_Model Update_Spec.
Import ListNotations.
Local Open Scope nat_scope.

Definition info (t : tree) (q : path) : option (bool * option Z * Z) :=
  match subtree t q with Some x => Some (is_leaf x, t_elem x, t_status x) | None => None end.

Fixpoint prefixb (p q : path) : bool :=
  match p, q with
  | [], _ => true
  | _ :: _, [] => false
  | i :: p', j :: q' => (i =? j) && prefixb p' q'
  end.

Lemma prefixb_spec p q : prefixb p q = true <-> exists r, q = p ++ r.
Proof.
  revert q. induction p as [|i p IH]; intros q; cbn [prefixb].
  - split; [intros _; exists q; reflexivity|reflexivity].
  - destruct q as [|j q]; [split; [discriminate|intros [r E]; discriminate E]|].
    rewrite andb_true_iff, Nat.eqb_eq, IH. split.
    + intros [-> [r ->]]. exists r. reflexivity.
    + intros [r E]. cbn in E. injection E as -> ->. split; [reflexivity|]. exists r. reflexivity.
Qed.
Lemma prefixb_refl p : prefixb p p = true.
Proof. apply prefixb_spec. exists []. now rewrite app_nil_r. Qed.
Lemma prefixb_app p r : prefixb p (p ++ r) = true.
Proof. apply prefixb_spec. now exists r. Qed.

Definition path_eqb (p q : path) : bool := if list_eq_dec Nat.eq_dec p q then true else false.
Lemma path_eqb_spec p q : reflect (p = q) (path_eqb p q).
Proof. unfold path_eqb. destruct (list_eq_dec Nat.eq_dec p q); constructor; assumption. Qed.

Lemma is_leaf_true x : is_leaf x = true <-> t_children x = [].
Proof. unfold is_leaf. destruct (t_children x); split; congruence. Qed.

Lemma subtree_update_below p f r : forall t,
  subtree (update p f t) (p ++ r) = match subtree t p with Some x => subtree (f x) r | None => None end.
Proof.
  induction p as [|i p IH]; intros t; cbn [update app subtree]; [reflexivity|].
  destruct t as [l c s e cs]. cbn [t_children]. rewrite nth_error_update_nth, Nat.eqb_refl.
  destruct (nth_error cs i) as [ch|]; cbn [option_map]; [apply IH|reflexivity].
Qed.

Lemma is_leaf_update_cons i p f t : is_leaf (update (i :: p) f t) = is_leaf t.
Proof. destruct t as [l c s e cs]. cbn. unfold is_leaf. cbn. now destruct cs; destruct i. Qed.

Lemma info_update_other p f : forall t q, prefixb p q = false -> info (update p f t) q = info t q.
Proof.
  induction p as [|i p IH]; intros t q H; [discriminate H|]. destruct q as [|j q].
  - unfold info. cbn [subtree]. rewrite is_leaf_update_cons. now destruct t.
  - cbn [prefixb] in H. destruct t as [l c s e cs]. unfold info. cbn [update subtree t_children].
    rewrite nth_error_update_nth. destruct (Nat.eqb_spec i j) as [->|Hne]; [|reflexivity].
    cbn [andb] in H. destruct (nth_error cs j) as [ch|]; cbn [option_map]; [|reflexivity].
    apply (IH ch q H).
Qed.

(** ** the steps *)
Lemma info_set_status t p s q :
  info (update p (set_status_node s) t) q =
  if path_eqb q p then match info t p with Some (lf, e, _) => Some (lf, e, s) | None => None end else info t q.
Proof.
  destruct (prefixb p q) eqn:E.
  - apply prefixb_spec in E as [r ->]. unfold info. rewrite subtree_update_below.
    destruct (path_eqb_spec (p ++ r) p) as [H|H].
    + assert (r = []) as -> by (apply (f_equal (@List.length nat)) in H; rewrite app_length in H; destruct r; [reflexivity|cbn in H; lia]).
      destruct (subtree t p) as [x|]; cbn [subtree]; [|reflexivity]. now destruct x.
    + rewrite subtree_app. destruct (subtree t p) as [[l c s0 e cs]|]; [|reflexivity].
      destruct r as [|i r]; [now rewrite app_nil_r in H|]. reflexivity.
  - rewrite info_update_other by exact E. destruct (path_eqb_spec q p) as [->|]; [|reflexivity].
    now rewrite prefixb_refl in E.
Qed.

Lemma info_set_elem t p z q :
  info (update p (set_elem_node z) t) q =
  if path_eqb q p then match info t p with Some (lf, _, s) => Some (lf, z, s) | None => None end else info t q.
Proof.
  destruct (prefixb p q) eqn:E.
  - apply prefixb_spec in E as [r ->]. unfold info. rewrite subtree_update_below.
    destruct (path_eqb_spec (p ++ r) p) as [H|H].
    + assert (r = []) as -> by (apply (f_equal (@List.length nat)) in H; rewrite app_length in H; destruct r; [reflexivity|cbn in H; lia]).
      destruct (subtree t p) as [x|]; cbn [subtree]; [|reflexivity]. now destruct x.
    + rewrite subtree_app. destruct (subtree t p) as [[l c s0 e cs]|]; [|reflexivity].
      destruct r as [|i r]; [now rewrite app_nil_r in H|]. reflexivity.
  - rewrite info_update_other by exact E. destruct (path_eqb_spec q p) as [->|]; [|reflexivity].
    now rewrite prefixb_refl in E.
Qed.

Lemma info_unrefine t p q :
  info (update p unrefine_node t) q =
  if path_eqb q p then match info t p with Some (_, e, s) => Some (true, e, s) | None => None end
  else if prefixb p q then None else info t q.
Proof.
  destruct (prefixb p q) eqn:E.
  - apply prefixb_spec in E as [r ->]. unfold info. rewrite subtree_update_below.
    destruct (path_eqb_spec (p ++ r) p) as [H|H].
    + assert (r = []) as -> by (apply (f_equal (@List.length nat)) in H; rewrite app_length in H; destruct r; [reflexivity|cbn in H; lia]).
      destruct (subtree t p) as [x|]; cbn [subtree]; [|reflexivity]. now destruct x.
    + destruct (subtree t p) as [[l c s0 e cs]|]; [|reflexivity].
      destruct r as [|i r]; [now rewrite app_nil_r in H|]. cbn. now destruct i.
  - rewrite info_update_other by exact E. destruct (path_eqb_spec q p) as [->|]; [|reflexivity].
    now rewrite prefixb_refl in E.
Qed.

(** paths of the children *)
Lemma child_paths_in n p q : In q (child_paths n p) <-> exists k, k < 2 ^ n /\ q = p ++ [k].
Proof.
  unfold child_paths. rewrite in_map_iff. split.
  - intros (k & <- & H). apply in_seq in H. exists k. split; [lia|reflexivity].
  - intros (k & H & ->). exists k. split; [reflexivity|]. apply in_seq. lia.
Qed.
Lemma child_paths_nodup n p : NoDup (child_paths n p).
Proof.
  unfold child_paths. apply FinFun.Injective_map_NoDup; [|apply seq_NoDup].
  intros a b H. apply app_inv_head in H. congruence.
Qed.

Definition is_child (n : nat) (p q : path) : bool := existsb (path_eqb q) (child_paths n p).
Lemma is_child_spec n p q : is_child n p q = true <-> exists k, k < 2 ^ n /\ q = p ++ [k].
Proof.
  unfold is_child. rewrite existsb_exists, <- child_paths_in. split.
  - intros (x & Hx & E). destruct (path_eqb_spec q x); [now subst|discriminate].
  - intros H. exists q. split; [exact H|]. now destruct (path_eqb_spec q q).
Qed.

Lemma info_refine n t p q : (exists e s, info t p = Some (true, e, s)) ->
  info (update p (refine_node n) t) q =
  if path_eqb q p then match info t p with Some (_, e, s) => Some (false, e, s) | None => None end
  else if is_child n p q then Some (true, None, unprocessed) else info t q.
Proof.
  intros (e & s & Hp). destruct (prefixb p q) eqn:E.
  - apply prefixb_spec in E as [r ->]. unfold info in *. rewrite subtree_update_below.
    destruct (subtree t p) as [x|] eqn:Ex; [|discriminate]. injection Hp as Hl He Hs.
    destruct (path_eqb_spec (p ++ r) p) as [H|H].
    + assert (r = []) as -> by (apply (f_equal (@List.length nat)) in H; rewrite app_length in H; destruct r; [reflexivity|cbn in H; lia]).
      cbn [subtree]. destruct x as [l c s0 e0 cs]. cbn. do 3 f_equal. unfold is_leaf. cbn.
      pose proof (make_children_length n l c) as M. pose proof (Nat.pow_nonzero 2 n).
      destruct (make_children n l c); [cbn in M; lia|reflexivity].
    + destruct r as [|i r]; [now rewrite app_nil_r in H|]. destruct x as [l c s0 e0 cs].
      apply is_leaf_true in Hl. cbn in Hl. subst cs.
      assert (Z : subtree t (p ++ i :: r) = None) by (rewrite subtree_app, Ex; cbn; now destruct i). rewrite Z.
      cbn [refine_node subtree t_children].
      destruct (Nat.ltb_spec i (2 ^ n)) as [Hi|Hi].
      * rewrite make_children_nth by exact Hi. destruct r as [|j r].
        -- replace (is_child n p (p ++ [i])) with true by (symmetry; apply is_child_spec; eauto). reflexivity.
        -- cbn. destruct (is_child n p (p ++ i :: j :: r)) eqn:C; [exfalso|now destruct j].
           apply is_child_spec in C as (k & _ & Hk). apply app_inv_head in Hk. discriminate.
      * replace (nth_error (make_children n l c) i) with (@None tree)
          by (symmetry; apply nth_error_None; rewrite make_children_length; exact Hi).
        destruct (is_child n p (p ++ i :: r)) eqn:C; [exfalso|reflexivity].
        apply is_child_spec in C as (k & Hk & Ek). apply app_inv_head in Ek. injection Ek as -> _. lia.
  - rewrite info_update_other by exact E. destruct (path_eqb_spec q p) as [->|]; [now rewrite prefixb_refl in E|].
    destruct (is_child n p q) eqn:C; [exfalso|reflexivity]. apply is_child_spec in C as (k & _ & ->).
    now rewrite prefixb_app in E.
Qed.

(** reachability of the trees *)
Lemma run_app n t ops ops' : tree_run n t (ops ++ ops') = bind (tree_run n t ops) (fun t' => tree_run n t' ops').
Proof.
  revert t. induction ops as [|op ops IH]; intros t; cbn [app tree_run]; [reflexivity|].
  destruct (tree_step n t op); cbn [bind]; try reflexivity; apply IH.
Qed.
Lemma reachable_step n t op t' : reachable n t -> tree_step n t op = Ok t' -> reachable n t'.
Proof.
  intros [ops H] E. exists (ops ++ [op]). rewrite run_app, H. cbn. now rewrite E.
Qed.

(** ** state-level facts *)
Definition inf (st : state) (q : path) := info (s_tree st) q.

Lemma elem_at_info st p : elem_at st p =
  match inf st p with Some (_, Some z, _) => Some (Z.to_nat z) | _ => None end.
Proof. unfold elem_at, inf, info. destruct (subtree (s_tree st) p) as [x|]; [|reflexivity]. now destruct (t_elem x). Qed.

Definition Cons (n : nat) (st : state) : Prop :=
  reachable n (s_tree st) /\
  forall p lf z s, inf st p = Some (lf, Some z, s) ->
    exists i e, z = Z.of_nat i /\ nth_error (s_elems st) i = Some e /\ e_path e = Some p /\ ((e_record e <> 2)%Z -> lf = true).

Lemma consistent_Cons n st : consistent n st <-> Cons n st.
Proof.
  unfold consistent, Cons. split; intros [R H]; (split; [exact R|]).
  - intros p lf z s E. unfold inf, info in E. destruct (subtree (s_tree st) p) as [x|] eqn:Ex; [|discriminate].
    injection E as E1 E2 E3. destruct (H p x z Ex E2) as (i & e & -> & H2 & H3 & H4). exists i, e. repeat split; try assumption.
    intros Hr. rewrite <- E1. apply is_leaf_true. auto.
  - intros p x z Ex Ez. destruct (H p (is_leaf x) z (t_status x)) as (i & e & -> & H2 & H3 & H4).
    { unfold inf, info. rewrite Ex, Ez. reflexivity. }
    exists i, e. repeat split; try assumption. intros Hr. apply is_leaf_true. auto.
Qed.

Lemma elem_at_cons n st p i : Cons n st -> elem_at st p = Some i ->
  exists e lf s, nth_error (s_elems st) i = Some e /\ e_path e = Some p /\ inf st p = Some (lf, Some (Z.of_nat i), s) /\
                 ((e_record e <> 2)%Z -> lf = true).
Proof.
  intros [_ C] E. rewrite elem_at_info in E. destruct (inf st p) as [[[lf [z|]] s]|] eqn:Ei; try discriminate.
  destruct (C _ _ _ _ Ei) as (j & e & -> & H1 & H2 & H3). injection E as <-. rewrite Nat2Z.id. exists e, lf, s. auto.
Qed.

Lemma tree_of_at n st i p : Cons n st -> (tree_of st i = Some p <-> elem_at st p = Some i).
Proof.
  intros C. unfold tree_of. split.
  - intros H. destruct (nth_error (s_elems st) i) as [e|]; [|discriminate]. destruct (e_path e) as [p'|]; [|discriminate].
    destruct (elem_at st p') as [j|] eqn:E; [|discriminate]. destruct (Nat.eqb_spec j i) as [->|]; [|discriminate]. congruence.
  - intros H. destruct (elem_at_cons n st p i C H) as (e & lf & s & H1 & H2 & H3 & _). rewrite H1, H2, H, Nat.eqb_refl. reflexivity.
Qed.

Lemma record_of_nth st i e : nth_error (s_elems st) i = Some e -> record_of st i = e_record e.
Proof. intros H. unfold record_of. now rewrite H. Qed.

Lemma exists_at_spec st p : exists_at st p = true <-> exists i, elem_at st p = Some i /\ record_of st i <> 2%Z.
Proof.
  unfold exists_at. destruct (elem_at st p) as [i|].
  - rewrite negb_true_iff, Z.eqb_neq. split; [eauto|]. intros (j & E & H). congruence.
  - split; [discriminate|]. intros (i & E & _). discriminate.
Qed.

Lemma lives_at n st i p : Cons n st -> (lives st i p <-> elem_at st p = Some i /\ record_of st i <> 2%Z).
Proof.
  intros C. unfold lives. split.
  - intros (x & e & H1 & H2 & H3 & H4). split; [|now rewrite (record_of_nth _ _ _ H3)].
    unfold elem_at. rewrite H1, H2, Nat2Z.id. reflexivity.
  - intros [H1 H2]. destruct (elem_at_cons n st p i C H1) as (e & lf & s & K1 & K2 & K3 & K4).
    unfold inf, info in K3. destruct (subtree (s_tree st) p) as [x|] eqn:Ex; [|discriminate]. injection K3 as _ Ez _.
    exists x, e. repeat split; try assumption. now rewrite <- (record_of_nth _ _ _ K1).
Qed.

Lemma exists_leaf n st p : Cons n st -> exists_at st p = true -> exists e s, inf st p = Some (true, e, s).
Proof.
  intros C H. apply exists_at_spec in H as (i & H1 & H2). destruct (elem_at_cons n st p i C H1) as (e & lf & s & K1 & K2 & K3 & K4).
  rewrite K4 in K3; [eauto|]. now rewrite <- (record_of_nth _ _ _ K1).
Qed.

(** *** records *)
Lemma record_set st i r j : record_of (set_record i r st) j =
  if (i =? j) && (j <? length (s_elems st)) then r else record_of st j.
Proof.
  unfold record_of, set_record. cbn [s_elems]. rewrite nth_error_update_nth.
  destruct (Nat.eqb_spec i j) as [->|]; cbn [andb]; [|reflexivity].
  destruct (Nat.ltb_spec j (length (s_elems st))) as [L|L].
  - destruct (nth_error (s_elems st) j) eqn:E; [reflexivity|]. apply nth_error_None in E. lia.
  - apply nth_error_None in L. rewrite L. reflexivity.
Qed.
Lemma inf_set st i r q : inf (set_record i r st) q = inf st q. Proof. reflexivity. Qed.
Lemma elem_at_set st i r q : elem_at (set_record i r st) q = elem_at st q. Proof. reflexivity. Qed.
Lemma nth_set st i r j : nth_error (s_elems (set_record i r st)) j =
  if i =? j then option_map (put_record r) (nth_error (s_elems st) j) else nth_error (s_elems st) j.
Proof. apply nth_error_update_nth. Qed.
Lemma length_set st i r : length (s_elems (set_record i r st)) = length (s_elems st).
Proof. apply update_nth_length. Qed.

Lemma Cons_set n st i r : Cons n st -> r = 2%Z \/ record_of st i <> 2%Z -> Cons n (set_record i r st).
Proof.
  intros [R C] Hr. split; [exact R|]. intros p lf z s H. rewrite inf_set in H.
  destruct (C _ _ _ _ H) as (j & e & -> & H1 & H2 & H3). rewrite <- (record_of_nth _ _ _ H1) in H3.
  destruct (Nat.eqb_spec i j) as [->|Hne].
  - exists j, (put_record r e). rewrite nth_set, Nat.eqb_refl, H1. repeat split; try assumption.
    cbn. intros K. apply H3. destruct Hr; [contradiction|assumption].
  - exists j, e. rewrite nth_set. destruct (Nat.eqb_spec i j); [contradiction|]. repeat split; try assumption.
    now rewrite <- (record_of_nth _ _ _ H1).
Qed.

Definition Whole (st : state) : Prop :=
  forall i e p, nth_error (s_elems st) i = Some e -> e_path e = Some p -> (e_record e <> 2)%Z -> elem_at st p = Some i.

Lemma Whole_no_orphans n st : Cons n st -> (Whole st <-> no_orphans st).
Proof.
  intros C. unfold Whole, no_orphans. split; intros H i e p H1 H2 H3.
  - specialize (H i e p H1 H2 H3). destruct (elem_at_cons n st p i C H) as (e' & lf & s & _ & _ & K & _).
    unfold inf, info in K. destruct (subtree (s_tree st) p) as [x|]; [|discriminate]. injection K as _ E _. eauto.
  - destruct (H i e p H1 H2 H3) as (x & E1 & E2). unfold elem_at. rewrite E1, E2, Nat2Z.id. reflexivity.
Qed.

Lemma Whole_set st i r : Whole st -> r = 2%Z \/ record_of st i <> 2%Z -> Whole (set_record i r st).
Proof.
  intros W Hr j e p H1 H2 H3. rewrite elem_at_set. rewrite nth_set in H1. destruct (Nat.eqb_spec i j) as [->|Hne].
  - destruct (nth_error (s_elems st) j) as [e0|] eqn:E0; [|discriminate]. cbn in H1. injection H1 as <-. cbn in *.
    apply (W j e0 p E0 H2). rewrite <- (record_of_nth _ _ _ E0). destruct Hr; [contradiction|assumption].
  - apply (W j e p); assumption.
Qed.

(** *** relation between states: elements are only added; deleted ones stay deleted; records become -1 or 1 only when told *)
Definition grows (st st' : state) : Prop :=
  length (s_elems st) <= length (s_elems st') /\
  forall i e, nth_error (s_elems st) i = Some e ->
    exists e', nth_error (s_elems st') i = Some e' /\ e_path e' = e_path e /\ e_def e' = e_def e /\ e_locked e' = e_locked e /\
               (e_record e = 2 -> e_record e' = 2)%Z.
Lemma grows_refl st : grows st st.
Proof. split; [lia|]. intros i e H. exists e. auto. Qed.
Lemma grows_trans a b c : grows a b -> grows b c -> grows a c.
Proof.
  intros [L1 G1] [L2 G2]. split; [lia|]. intros i e H. destruct (G1 i e H) as (e1 & H1 & P1 & D1 & K1 & R1).
  destruct (G2 i e1 H1) as (e2 & H2 & P2 & D2 & K2 & R2). exists e2. repeat split; try congruence. auto.
Qed.
Lemma grows_set st i r : r = 2%Z \/ record_of st i <> 2%Z -> grows st (set_record i r st).
Proof.
  intros Hr. split; [rewrite length_set; lia|]. intros j e H. rewrite nth_set, H. destruct (Nat.eqb_spec i j) as [->|].
  - exists (put_record r e). repeat split; cbn; try reflexivity. intros E. destruct Hr as [Hr|Hr]; [exact Hr|].
    rewrite (record_of_nth _ _ _ H) in Hr. contradiction.
  - exists e. auto.
Qed.

(** *** tree operations *)
Lemma on_tree_elems n op st st' : on_tree n op st = Ok st' -> s_elems st' = s_elems st /\ tree_step n (s_tree st) op = Ok (s_tree st').
Proof.
  unfold on_tree. destruct (tree_step n (s_tree st) op) as [t| | |]; cbn [bind]; intros H; try discriminate.
  injection H as <-. split; reflexivity.
Qed.
Lemma record_tree st st' i : s_elems st' = s_elems st -> record_of st' i = record_of st i.
Proof. intros H. unfold record_of. now rewrite H. Qed.
Lemma grows_tree st st' : s_elems st' = s_elems st -> grows st st'.
Proof. intros E. split; [rewrite E; lia|]. intros i e H. rewrite E. exists e. auto. Qed.

Lemma inf_subtree st p v : inf st p = Some v -> exists x, subtree (s_tree st) p = Some x /\ v = (is_leaf x, t_elem x, t_status x).
Proof. unfold inf, info. destruct (subtree (s_tree st) p) as [x|]; intros H; [|discriminate]. injection H as <-. eauto. Qed.

Lemma step_status n st p s v : Cons n st -> inf st p = Some v ->
  exists st', on_tree n (Set_status p s) st = Ok st' /\ Cons n st' /\ s_elems st' = s_elems st /\
    (forall q, elem_at st' q = elem_at st q) /\
    (forall q, inf st' q = if path_eqb q p then Some (fst v, s) else inf st q).
Proof.
  intros [R C] Hp. destruct (inf_subtree _ _ _ Hp) as (x & Hx & Ev). unfold on_tree, tree_step. rewrite Hx. cbn [of_option_ub bind].
  eexists. split; [reflexivity|].
  assert (I : forall q, inf (mk_state (update p (set_status_node s) (s_tree st)) (s_elems st)) q =
                        if path_eqb q p then Some (fst v, s) else inf st q).
  { intros q. unfold inf at 1. cbn [s_tree]. rewrite info_set_status. fold (inf st p). rewrite Hp. destruct v as [[lf e] s0].
    destruct (path_eqb q p); reflexivity. }
  split; [split|split; [reflexivity|split; [|exact I]]].
  - apply (reachable_step n (s_tree st) (Set_status p s)); [exact R|]. cbn. rewrite Hx. reflexivity.
  - cbn [s_elems]. intros q lf z s' H. rewrite I in H. destruct (path_eqb_spec q p) as [->|].
    + destruct v as [[lf0 e0] s0]. cbn in H. injection H as -> -> _. apply (C _ _ _ _ Hp).
    + apply (C _ _ _ _ H).
  - intros q. rewrite !elem_at_info, I. destruct (path_eqb_spec q p) as [->|]; [|reflexivity]. rewrite Hp. now destruct v as [[lf0 e0] s0].
Qed.

Lemma step_refine n st p e s : Cons n st -> inf st p = Some (true, e, s) -> exists_at st p = false ->
  exists st', on_tree n (Refine p) st = Ok st' /\ Cons n st' /\ s_elems st' = s_elems st /\
    (forall q, elem_at st' q = elem_at st q) /\
    (forall q, inf st' q = if path_eqb q p then Some (false, e, s) else if is_child n p q then Some (true, None, unprocessed) else inf st q).
Proof.
  intros [R C] Hp Hn. destruct (inf_subtree _ _ _ Hp) as (x & Hx & Ev). injection Ev as E1 E2 E3.
  assert (St : tree_step n (s_tree st) (Refine p) = Ok (update p (refine_node n) (s_tree st))).
  { cbn. rewrite Hx. cbn. now rewrite <- E1. }
  unfold on_tree. rewrite St. cbn [bind]. eexists. split; [reflexivity|].
  assert (I : forall q, inf (mk_state (update p (refine_node n) (s_tree st)) (s_elems st)) q =
                        if path_eqb q p then Some (false, e, s) else if is_child n p q then Some (true, None, unprocessed) else inf st q).
  { intros q. unfold inf at 1. cbn [s_tree]. rewrite info_refine by eauto. fold (inf st p). rewrite Hp. reflexivity. }
  assert (N : forall q, is_child n p q = true -> inf st q = None).
  { intros q Hq. apply is_child_spec in Hq as (k & _ & ->). unfold inf, info. rewrite subtree_app, Hx. symmetry in E1. apply is_leaf_true in E1.
    cbn. rewrite E1. now destruct k. }
  split; [split|split; [reflexivity|split; [|exact I]]].
  - apply (reachable_step n (s_tree st) (Refine p)); [exact R|exact St].
  - cbn [s_elems]. intros q lf z s' H. rewrite I in H. destruct (path_eqb_spec q p) as [->|].
    + injection H as <- -> <-. destruct (C _ _ _ _ Hp) as (i & el & -> & H1 & H2 & H3). exists i, el. repeat split; try assumption.
      intros K. exfalso. assert (exists_at st p = true); [|congruence]. apply exists_at_spec. exists i.
      split; [now rewrite elem_at_info, Hp, Nat2Z.id|now rewrite (record_of_nth _ _ _ H1)].
    + destruct (is_child n p q); [discriminate|]. apply (C _ _ _ _ H).
  - intros q. rewrite !elem_at_info, I. destruct (path_eqb_spec q p) as [->|]; [now rewrite Hp|].
    destruct (is_child n p q) eqn:Ec; [|reflexivity]. now rewrite (N q Ec).
Qed.

Lemma step_unrefine n st p lf e s : Cons n st -> inf st p = Some (lf, e, s) ->
  exists st', on_tree n (Unrefine p) st = Ok st' /\ Cons n st' /\ s_elems st' = s_elems st /\
    (forall q, elem_at st' q = if prefixb p q && negb (path_eqb q p) then None else elem_at st q) /\
    (forall q, inf st' q = if path_eqb q p then Some (true, e, s) else if prefixb p q then None else inf st q).
Proof.
  intros [R C] Hp. destruct (inf_subtree _ _ _ Hp) as (x & Hx & Ev). 
  assert (St : tree_step n (s_tree st) (Unrefine p) = Ok (update p unrefine_node (s_tree st))).
  { cbn. rewrite Hx. reflexivity. }
  unfold on_tree. rewrite St. cbn [bind]. eexists. split; [reflexivity|].
  assert (I : forall q, inf (mk_state (update p unrefine_node (s_tree st)) (s_elems st)) q =
                        if path_eqb q p then Some (true, e, s) else if prefixb p q then None else inf st q).
  { intros q. unfold inf at 1. cbn [s_tree]. rewrite info_unrefine. fold (inf st p). rewrite Hp. reflexivity. }
  split; [split|split; [reflexivity|split; [|exact I]]].
  - apply (reachable_step n (s_tree st) (Unrefine p)); [exact R|exact St].
  - cbn [s_elems]. intros q lf' z s' H. rewrite I in H. destruct (path_eqb_spec q p) as [->|].
    + injection H as <- -> <-. destruct (C _ _ _ _ Hp) as (i & el & -> & H1 & H2 & H3). exists i, el. repeat split; assumption.
    + destruct (prefixb p q); [discriminate|]. apply (C _ _ _ _ H).
  - intros q. rewrite !elem_at_info, I. destruct (path_eqb_spec q p) as [->|]; [rewrite andb_false_r; now rewrite Hp|].
    cbn [negb]. rewrite andb_true_r. now destruct (prefixb p q).
Qed.

Lemma nth_app_one {A} (l : list A) a i : nth_error (l ++ [a]) i =
  if i <? length l then nth_error l i else if i =? length l then Some a else None.
Proof.
  destruct (Nat.ltb_spec i (length l)); [now rewrite nth_error_app1|]. rewrite nth_error_app2 by lia.
  destruct (Nat.eqb_spec i (length l)) as [->|]; [now rewrite Nat.sub_diag|]. apply nth_error_None. cbn. lia.
Qed.

Lemma step_add n d st p e s : Cons n st -> inf st p = Some (true, e, s) ->
  exists st', add_elem n d p st = Ok st' /\ Cons n st' /\ s_elems st' = s_elems st ++ [mk_elem (Some p) d 0%Z false] /\
    (forall q, elem_at st' q = if path_eqb q p then Some (length (s_elems st)) else elem_at st q) /\
    (forall q, inf st' q = if path_eqb q p then Some (true, Some (Z.of_nat (length (s_elems st))), s) else inf st q).
Proof.
  intros [R C] Hp. destruct (inf_subtree _ _ _ Hp) as (x & Hx & Ev). set (N := length (s_elems st)).
  assert (St : tree_step n (s_tree st) (Set_elem p (Some (Z.of_nat N))) = Ok (update p (set_elem_node (Some (Z.of_nat N))) (s_tree st))).
  { cbn. rewrite Hx. reflexivity. }
  unfold add_elem, on_tree. fold N. rewrite St. cbn [bind s_tree s_elems]. eexists. split; [reflexivity|].
  assert (I : forall q, inf (mk_state (update p (set_elem_node (Some (Z.of_nat N))) (s_tree st)) (s_elems st ++ [mk_elem (Some p) d 0%Z false])) q =
                        if path_eqb q p then Some (true, Some (Z.of_nat N), s) else inf st q).
  { intros q. unfold inf at 1. cbn [s_tree]. rewrite info_set_elem. fold (inf st p). rewrite Hp. reflexivity. }
  split; [split|split; [reflexivity|split; [|exact I]]].
  - apply (reachable_step n (s_tree st) (Set_elem p (Some (Z.of_nat N)))); [exact R|exact St].
  - cbn [s_elems]. intros q lf' z s' H. rewrite I in H. destruct (path_eqb_spec q p) as [->|].
    + injection H as <- <- <-. exists N, (mk_elem (Some p) d 0%Z false). rewrite nth_app_one. unfold N.
      rewrite Nat.ltb_irrefl, Nat.eqb_refl. repeat split.
    + destruct (C _ _ _ _ H) as (i & el & -> & H1 & H2 & H3). exists i, el. repeat split; try assumption.
      rewrite nth_app_one. assert (i < length (s_elems st)) by (apply nth_error_Some; congruence).
      now destruct (Nat.ltb_spec i (length (s_elems st))); [|lia].
  - intros q. rewrite !elem_at_info, I. destruct (path_eqb_spec q p) as [->|]; [|reflexivity]. now rewrite Nat2Z.id.
Qed.

Lemma record_app st st' x i : s_elems st' = s_elems st ++ [x] -> i < length (s_elems st) -> record_of st' i = record_of st i.
Proof. intros E Hi. unfold record_of. rewrite E, nth_error_app1 by exact Hi. reflexivity. Qed.
Lemma record_app_new st st' x : s_elems st' = s_elems st ++ [x] -> record_of st' (length (s_elems st)) = e_record x.
Proof. intros E. unfold record_of. rewrite E, nth_error_app2, Nat.sub_diag by lia. reflexivity. Qed.
Lemma grows_app st st' x : s_elems st' = s_elems st ++ [x] -> grows st st'.
Proof.
  intros E. split; [rewrite E, app_length; lia|]. intros i e H. exists e. rewrite E, nth_error_app1; [auto|].
  apply nth_error_Some. congruence.
Qed.

Lemma elem_at_lt n st p i : Cons n st -> elem_at st p = Some i -> i < length (s_elems st).
Proof. intros C H. destruct (elem_at_cons n st p i C H) as (e & _ & _ & H1 & _). apply nth_error_Some. congruence. Qed.

Lemma Whole_add n d st p st' : Cons n st -> Whole st -> exists_at st p = false ->
  s_elems st' = s_elems st ++ [mk_elem (Some p) d 0%Z false] ->
  (forall q, elem_at st' q = if path_eqb q p then Some (length (s_elems st)) else elem_at st q) -> Whole st'.
Proof.
  intros C W Hn E A i e q H1 H2 H3. rewrite A. rewrite E, nth_app_one in H1.
  destruct (Nat.ltb_spec i (length (s_elems st))) as [L|L].
  - pose proof (W i e q H1 H2 H3) as K. destruct (path_eqb_spec q p) as [->|]; [|exact K]. exfalso.
    assert (exists_at st p = true); [|congruence]. apply exists_at_spec. exists i. split; [exact K|].
    now rewrite (record_of_nth _ _ _ H1).
  - destruct (Nat.eqb_spec i (length (s_elems st))) as [->|]; [|discriminate]. injection H1 as <-. cbn in H2. injection H2 as <-.
    now destruct (path_eqb_spec p p).
Qed.
Lemma Whole_tree st st' : s_elems st' = s_elems st -> (forall q, elem_at st' q = elem_at st q) -> Whole st -> Whole st'.
Proof. intros E A W i e p H1 H2 H3. rewrite A. rewrite E in H1. eauto. Qed.
