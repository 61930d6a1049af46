From Coq Require Import ZArith QArith List Bool Arith Lia ZifyBool ZifyNat.
From Verif Require Import Outcome Tree_Model Tree_Spec.
Import ListNotations.
Local Open Scope nat_scope.

(** ** induction on trees *)
Lemma tree_ind' (P : tree -> Prop) :
  (forall l c s e cs, Forall P cs -> P (Node l c s e cs)) -> forall t, P t.
Proof.
  intros H. fix IH 1. intros [l c s e cs]. apply H.
  induction cs as [|x cs IHcs]; constructor; [apply IH|exact IHcs].
Qed.

(** ** bits of child numbers *)
Definition bit (n k i : nat) : bool := Nat.testbit k (n - 1 - i).

Lemma bit_code n k i : k / 2 ^ (n - 1 - i) mod 2 = Nat.b2n (bit n k i).
Proof. unfold bit. now rewrite Nat.testbit_spec'. Qed.

Lemma bit_inj n k k' : k < 2 ^ n -> k' < 2 ^ n -> (forall i, i < n -> bit n k i = bit n k' i) -> k = k'.
Proof.
  intros Hk Hk' H. apply Nat.bits_inj. intros j.
  destruct (Nat.lt_ge_cases j n) as [L|L].
  - specialize (H (n - 1 - j) ltac:(lia)). unfold bit in H. now replace (n - 1 - (n - 1 - j)) with j in H by lia.
  - assert (Q : forall a, a < 2 ^ n -> Nat.testbit a j = false).
    { intros a Ha. destruct (Nat.eq_dec a 0) as [->|Hne]; [apply Nat.bits_0|].
      apply Nat.bits_above_log2. apply Nat.log2_lt_pow2; [lia|].
      eapply Nat.lt_le_trans; [exact Ha|]. apply Nat.pow_le_mono_r; lia. }
    now rewrite !Q.
Qed.

Lemma bit_le n k k' : k < 2 ^ n -> k' < 2 ^ n ->
  (forall i, i < n -> bit n k i = true -> bit n k' i = true) -> k <= k'.
Proof.
  intros Hk Hk' H.
  assert (E : Nat.land k k' = k).
  { apply Nat.bits_inj. intros j. rewrite Nat.land_spec.
    destruct (Nat.testbit k j) eqn:T; [|reflexivity]. cbn [andb].
    assert (j < n).
    { destruct (Nat.lt_ge_cases j n) as [L|L]; [exact L|exfalso].
      assert (Nat.testbit k j = false); [|congruence].
      destruct (Nat.eq_dec k 0) as [->|Hne]; [apply Nat.bits_0|].
      apply Nat.bits_above_log2. apply Nat.log2_lt_pow2; [lia|].
      eapply Nat.lt_le_trans; [exact Hk|]. apply Nat.pow_le_mono_r; lia. }
    specialize (H (n - 1 - j) ltac:(lia)). unfold bit in H.
    replace (n - 1 - (n - 1 - j)) with j in H by lia. auto. }
  rewrite <- E.
  (* land k k' <= k' *)
  assert (G : forall a b, Nat.land a b <= b).
  { intros a b. assert (D : Nat.ldiff (Nat.land a b) b = 0).
    { apply Nat.bits_inj_0. intros j. rewrite Nat.ldiff_spec, Nat.land_spec.
      destruct (Nat.testbit a j), (Nat.testbit b j); reflexivity. }
    now apply Nat.ldiff_le. }
  apply G.
Qed.

Lemma testbit_add_hi j a m : a < 2 ^ j -> m <= j -> Nat.testbit (2 ^ j + a) m = if m =? j then true else Nat.testbit a m.
Proof.
  intros Ha Hm. assert (P0 : 2 ^ j <> 0) by (apply Nat.pow_nonzero; lia).
  destruct (Nat.eqb_spec m j) as [->|Hne].
  - apply Nat.b2n_inj. rewrite Nat.testbit_spec'. 
    replace (2 ^ j + a) with (a + 1 * 2 ^ j) by lia. rewrite Nat.div_add by exact P0.
    rewrite Nat.div_small by exact Ha. reflexivity.
  - apply Nat.b2n_inj. rewrite !Nat.testbit_spec'.
    replace (2 ^ j) with (2 ^ (j - m) * 2 ^ m) by (rewrite <- Nat.pow_add_r; f_equal; lia).
    rewrite Nat.add_comm, Nat.div_add by (apply Nat.pow_nonzero; lia).
    replace (2 ^ (j - m)) with (2 ^ (j - m - 1) * 2).
    + now rewrite Nat.mod_add by lia.
    + rewrite Nat.mul_comm, <- Nat.pow_succ_r'. f_equal. lia.
Qed.

Lemma bit_surj n (v : nat -> bool) : exists k, k < 2 ^ n /\ forall i, i < n -> bit n k i = v i.
Proof.
  revert v. induction n as [|n IH]; intros v.
  - exists 0. split; [cbn; lia|lia].
  - destruct (IH (fun i => v (S i))) as (k & Hk & H).
    exists ((if v 0 then 2 ^ n else 0) + k). cbn [Nat.pow]. split; [destruct (v 0); lia|].
    intros i Hi. unfold bit in *. destruct i as [|i].
    + replace (S n - 1 - 0) with n by lia. destruct (v 0).
      * rewrite testbit_add_hi by lia. now rewrite Nat.eqb_refl.
      * cbn [Nat.add]. destruct (Nat.eq_dec k 0) as [->|Hne]; [apply Nat.bits_0|].
        apply Nat.bits_above_log2. now apply Nat.log2_lt_pow2; [lia|].
    + replace (S n - 1 - S i) with (n - 1 - i) by lia. rewrite <- (H i) by lia. destruct (v 0); [|reflexivity].
      rewrite testbit_add_hi by lia. now destruct (Nat.eqb_spec (n - 1 - i) n); [lia|].
Qed.

(** ** well-formedness *)
Inductive wf (n : nat) : tree -> Prop :=
| wf_node l c s e cs :
    length c = n ->
    cs = [] \/ (length cs = 2 ^ n /\
                forall k ch, nth_error cs k = Some ch -> t_level ch = S l /\ t_coords ch = child_coords n c k) ->
    Forall (wf n) cs -> wf n (Node l c s e cs).

Lemma wf_inv n l c s e cs : wf n (Node l c s e cs) ->
  length c = n /\
  (cs = [] \/ (length cs = 2 ^ n /\
                forall k ch, nth_error cs k = Some ch -> t_level ch = S l /\ t_coords ch = child_coords n c k)) /\
  Forall (wf n) cs.
Proof. intros H. inversion H. auto. Qed.

Ltac winv W := destruct (wf_inv _ _ _ _ _ _ W) as (Hl & Hc & HF).

Lemma nth_child_coords n c k i : i < n ->
  nth i (child_coords n c k) 0%Z = (2 * nth i c 0 + Z.b2z (bit n k i))%Z.
Proof.
  intros Hi. unfold child_coords.
  erewrite nth_indep by (rewrite map_length, seq_length; exact Hi).
  rewrite (map_nth (fun d => (2 * nth d c 0 + Z.of_nat (k / 2 ^ (n - 1 - d) mod 2))%Z) (seq 0 n) 0 i).
  rewrite seq_nth by exact Hi. cbn [Nat.add]. rewrite bit_code. now destruct (bit n k i).
Qed.

Lemma child_coords_length n c k : length (child_coords n c k) = n.
Proof. unfold child_coords. now rewrite map_length, seq_length. Qed.

Lemma make_children_nth n l c k : k < 2 ^ n ->
  nth_error (make_children n l c) k = Some (Node (S l) (child_coords n c k) unprocessed None []).
Proof.
  intros Hk. unfold make_children. rewrite nth_error_map.
  rewrite (nth_error_nth' _ 0) by (now rewrite seq_length). rewrite seq_nth by exact Hk. reflexivity.
Qed.

Lemma make_children_length n l c : length (make_children n l c) = 2 ^ n.
Proof. unfold make_children. now rewrite map_length, seq_length. Qed.

Lemma wf_new n : wf n (new_tree n).
Proof. constructor; [apply repeat_length|now left|constructor]. Qed.

Lemma wf_refine n t : wf n t -> wf n (refine_node n t).
Proof.
  intros H. destruct t as [l c s e cs]. winv H. cbn [refine_node]. constructor; [exact Hl| |].
  - right. split; [apply make_children_length|].
    intros k ch Hk. assert (k < 2 ^ n).
    { rewrite <- (make_children_length n l c). apply nth_error_Some. congruence. }
    rewrite make_children_nth in Hk by assumption. inversion Hk; subst. split; reflexivity.
  - rewrite Forall_forall. intros x Hx. unfold make_children in Hx. apply in_map_iff in Hx as (k & <- & _).
    constructor; [apply child_coords_length|now left|constructor].
Qed.

Lemma wf_unrefine n t : wf n t -> wf n (unrefine_node t).
Proof. intros H. inversion H; subst. cbn. constructor; [reflexivity|now left|constructor]. Qed.

Lemma wf_set_status n s t : wf n t -> wf n (set_status_node s t).
Proof. intros H. inversion H; subst. cbn. now constructor. Qed.

Lemma wf_set_elem n s t : wf n t -> wf n (set_elem_node s t).
Proof. intros H. inversion H; subst. cbn. now constructor. Qed.

(** update_nth *)
Lemma update_nth_length {A} i (f : A -> A) l : length (update_nth i f l) = length l.
Proof. revert i. induction l as [|x l IH]; intros [|i]; cbn; auto. Qed.

Lemma nth_error_update_nth {A} i (f : A -> A) l j :
  nth_error (update_nth i f l) j = if i =? j then option_map f (nth_error l j) else nth_error l j.
Proof.
  revert i j. induction l as [|x l IH]; intros [|i] [|j]; cbn; auto.
  - now destruct (i =? j).
Qed.

Definition keeps (f : tree -> tree) : Prop := forall x, t_level (f x) = t_level x /\ t_coords (f x) = t_coords x.

Lemma update_keeps p f : keeps f -> keeps (update p f).
Proof.
  intros Hf [l c s e cs]. destruct p as [|i p]; cbn [update]; [apply Hf|]. split; reflexivity.
Qed.

Lemma wf_update n p f : keeps f -> (forall x, wf n x -> wf n (f x)) -> forall t, wf n t -> wf n (update p f t).
Proof.
  intros Hk Hf. induction p as [|i p IH]; intros t Ht; cbn [update]; [auto|].
  destruct t as [l c s e cs]. winv Ht. constructor; [exact Hl| |].
  - destruct Hc as [->|(Hlen & Hch)]; [left; now destruct i|right].
    split; [now rewrite update_nth_length|]. intros k ch. rewrite nth_error_update_nth.
    destruct (i =? k); [|apply Hch].
    destruct (nth_error cs k) as [x|] eqn:E; [|discriminate]. cbn. intros H; inversion H; subst.
    destruct (update_keeps p f Hk x) as [-> ->]. now apply Hch.
  - clear Hc Ht. revert i. induction HF as [|x cs Hx HF IHF]; intros [|i]; cbn [update_nth]; try constructor; auto.
Qed.

Lemma subtree_app t p q : subtree t (p ++ q) = match subtree t p with Some x => subtree x q | None => None end.
Proof.
  revert t. induction p as [|i p IH]; intros t; cbn [app subtree]; [reflexivity|].
  destruct (nth_error (t_children t) i); [apply IH|reflexivity].
Qed.

Lemma wf_subtree n t p x : wf n t -> subtree t p = Some x -> wf n x /\ t_level x = t_level t + length p.
Proof.
  revert t. induction p as [|i p IH]; intros t Ht H; cbn [subtree] in H.
  - inversion H; subst. cbn. split; [assumption|lia].
  - destruct (nth_error (t_children t) i) as [ch|] eqn:E; [|discriminate].
    destruct t as [l c s e cs]. winv Ht. cbn [t_children] in E.
    assert (wf n ch) by (rewrite Forall_forall in HF; apply HF; eapply nth_error_In; eassumption).
    destruct (IH _ H0 H) as [Hx Hlev]. split; [assumption|]. rewrite Hlev. cbn [t_level length].
    destruct Hc as [->|[_ Hc]]; [destruct i; discriminate|]. destruct (Hc _ _ E) as [-> _]. lia.
Qed.

Lemma clear_keeps : keeps clear_status_node.
Proof. intros [l c s e cs]. split; reflexivity. Qed.

Lemma wf_clear n t : wf n t -> wf n (clear_status_node t).
Proof.
  induction t as [l c s e cs IH] using tree_ind'. intros H. winv H.
  cbn [clear_status_node]. constructor; [exact Hl| |].
  - destruct Hc as [->|[Hlen Hc]]; [now left|right]. split; [now rewrite map_length|].
    intros k ch. rewrite nth_error_map. destruct (nth_error cs k) as [x|] eqn:E; [|discriminate].
    cbn. intros Q; inversion Q; subst. destruct (clear_keeps x) as [-> ->]. now apply Hc.
  - rewrite Forall_forall in *. intros x Hx. apply in_map_iff in Hx as (y & <- & Hy). auto.
Qed.

Lemma keeps_refine n : keeps (refine_node n). Proof. intros [l c s e cs]; split; reflexivity. Qed.
Lemma keeps_unrefine : keeps unrefine_node. Proof. intros [l c s e cs]; split; reflexivity. Qed.
Lemma keeps_status s : keeps (set_status_node s). Proof. intros [l c s' e cs]; split; reflexivity. Qed.
Lemma keeps_elem s : keeps (set_elem_node s). Proof. intros [l c s' e cs]; split; reflexivity. Qed.

Lemma wf_flood_loop fuel n ns t queue t' : wf n t -> flood_loop fuel n ns t queue = Ok t' ->
  wf n t' /\ t_level t' = t_level t /\ t_coords t' = t_coords t.
Proof.
  revert t queue. induction fuel as [|fuel IH]; intros t queue Ht H; destruct queue as [|p rest]; cbn [flood_loop] in H;
    try discriminate; try (inversion H; subst; now auto).
  destruct (subtree t p) as [x|]; try discriminate. cbn [of_option_ub bind] in H.
  destruct (t_status x =? unprocessed)%Z.
  - destruct (push_neighbors _ _ _ _ _) as [queue| | |]; try discriminate. cbn [bind] in H.
    apply IH in H.
    + destruct (update_keeps p _ (keeps_status ns) t) as [E1 E2]. rewrite E1, E2 in H. exact H.
    + apply wf_update; auto using keeps_status, wf_set_status.
  - eauto.
Qed.

Lemma wf_flood_fill fuel n t p ns t' : wf n t -> flood_fill fuel n t p ns = Ok t' ->
  wf n t' /\ t_level t' = t_level t /\ t_coords t' = t_coords t.
Proof.
  revert t p t'. induction fuel as [|fuel IH]; intros t p t' Ht H; cbn [flood_fill] in H; [discriminate|].
  destruct (ns =? unprocessed)%Z; [discriminate|]. destruct (subtree t p) as [x|]; [|discriminate]. cbn [of_option_ub bind] in H.
  destruct (negb (is_leaf x)).
  - destruct (flood_fill fuel n t (p ++ [0]) ns) as [t1| | |] eqn:E; try discriminate. cbn [bind] in H.
    apply IH in E; [|exact Ht]. destruct E as (W & E1 & E2). apply wf_flood_loop in H; [|exact W].
    destruct H as (W' & H1 & H2). split; [exact W'|]. split; congruence.
  - cbn [bind] in H. now apply wf_flood_loop in H.
Qed.

Lemma wf_step n t op t' : wf n t -> tree_step n t op = Ok t' -> wf n t' /\ t_level t' = t_level t /\ t_coords t' = t_coords t.
Proof.
  intros Ht H.
  assert (G : forall p f, keeps f -> (forall x, wf n x -> wf n (f x)) -> Ok (update p f t) = Ok t' ->
              wf n t' /\ t_level t' = t_level t /\ t_coords t' = t_coords t).
  { intros p f K W E. inversion E; subst. destruct (update_keeps p f K t) as [-> ->]. split; [|split; reflexivity].
    now apply wf_update. }
  destruct op as [p|p|p s|p e|p|fuel p s]; cbn [tree_step] in H;
    try (destruct (subtree t p) as [x|]; [|discriminate]; cbn [of_option_ub bind] in H).
  - destruct (is_leaf x); [|discriminate]. eapply G; [apply keeps_refine|apply wf_refine|exact H].
  - eapply G; [apply keeps_unrefine|apply wf_unrefine|exact H].
  - eapply G; [apply keeps_status|apply wf_set_status|exact H].
  - eapply G; [apply keeps_elem|apply wf_set_elem|exact H].
  - eapply G; [apply clear_keeps|apply wf_clear|exact H].
  - eapply wf_flood_fill; eassumption.
Qed.

Lemma run_wf n ops t t' : wf n t -> tree_run n t ops = Ok t' -> wf n t' /\ t_level t' = t_level t /\ t_coords t' = t_coords t.
Proof.
  revert t. induction ops as [|op ops IH]; intros t Ht H; cbn [tree_run] in H.
  - inversion H; subst; auto.
  - destruct (tree_step n t op) as [t1| | |] eqn:E; try discriminate; [|eauto].
    apply wf_step in E; [|exact Ht]. destruct E as (W & E1 & E2). rewrite <- E1, <- E2. eauto.
Qed.

Lemma reachable_wf n t : reachable n t -> wf n t /\ t_level t = 0 /\ t_coords t = repeat 0%Z n.
Proof. intros [ops H]. apply run_wf in H; [|apply wf_new]. exact H. Qed.

Lemma nth_repeat_0 i n : nth i (repeat 0%Z n) 0%Z = 0%Z.
Proof. revert i. induction n as [|n IH]; intros [|i]; cbn; auto. Qed.

Lemma reachable_proper n t : reachable n t -> proper n t.
Proof.
  intros H. destruct (reachable_wf n t H) as (W & L & C).
  split; [exact L|]. split.
  - intros i. unfold coord. rewrite C. apply nth_repeat_0.
  - intros p x Hx. destruct (wf_subtree n t p x W Hx) as [Wx Lx].
    destruct x as [l c s e cs]. winv Wx. cbn [t_coords t_level t_children] in *.
    split; [exact Hl|]. split; [lia|].
    destruct Hc as [->|[Hlen Hc]]; [now left|right]. split; [exact Hlen|].
    intros k ch E. destruct (Hc k ch E) as [E1 E2]. split; [exact E1|].
    intros i Hi. unfold coord. rewrite E2, nth_child_coords by exact Hi. reflexivity.
Qed.

(** ** generic search *)
Fixpoint search (B : tree -> bool) (t : tree) {struct t} : option path :=
  if B t then
    match t with Node _ _ _ _ cs => match first_found (search B) 0 cs with Some p => Some p | None => Some [] end end
  else None.

Lemma first_found_ext (f g : tree -> option path) cs i : Forall (fun x => f x = g x) cs -> first_found f i cs = first_found g i cs.
Proof.
  intros H. revert i. induction H as [|x cs Hx H IH]; intros i; cbn [first_found]; [reflexivity|]. rewrite Hx.
  destruct (g x); [reflexivity|apply IH].
Qed.

Lemma find_leaf_int_search n rl c b t : find_leaf_int n rl c b t = search (fun x => negb (outside n rl c b x)) t.
Proof.
  induction t as [l cc s e cs IH] using tree_ind'. cbn [find_leaf_int search].
  destruct (outside n rl c b _); cbn [negb]; [reflexivity|]. now rewrite (first_found_ext _ _ _ _ IH).
Qed.

Lemma find_leaf_pos_search n rs o pos t : find_leaf_pos n rs o pos t = search (fun x => negb (outside_pos n rs o pos x)) t.
Proof.
  induction t as [l cc s e cs IH] using tree_ind'. cbn [find_leaf_pos search].
  destruct (outside_pos n rs o pos _); cbn [negb]; [reflexivity|]. now rewrite (first_found_ext _ _ _ _ IH).
Qed.

Lemma first_found_spec f cs i :
  match first_found f i cs with
  | Some p => exists k q x, p = (i + k) :: q /\ nth_error cs k = Some x /\ f x = Some q /\
                            forall k' x', k' < k -> nth_error cs k' = Some x' -> f x' = None
  | None => forall k x, nth_error cs k = Some x -> f x = None
  end.
Proof.
  revert i. induction cs as [|x cs IH]; intros i; cbn [first_found].
  - intros [|k] x; discriminate.
  - destruct (f x) as [q|] eqn:E.
    + exists 0, q, x. rewrite Nat.add_0_r. repeat split; auto. intros; lia.
    + specialize (IH (S i)). destruct (first_found f (S i) cs) as [p|].
      * destruct IH as (k & q & y & -> & H1 & H2 & H3). exists (S k), q, y. repeat split; auto; [f_equal; lia|].
        intros [|k'] x' Hk' Hx'; cbn in Hx'; [congruence|]. apply (H3 k'); [lia|exact Hx'].
      * intros [|k] y Hy; cbn in Hy; [congruence|]. now apply (IH k).
Qed.

Lemma search_none B t : search B t = None <-> B t = false.
Proof.
  destruct t as [l c s e cs]. cbn [search]. destruct (B _); [|tauto].
  destruct (first_found _ _ _); split; discriminate.
Qed.

(** descend: B holds at a node with children => some child has it *)
Definition covers (B : tree -> bool) (n : nat) : Prop :=
  forall x, wf n x -> B x = true -> t_children x <> [] -> exists k ch, nth_error (t_children x) k = Some ch /\ B ch = true.

Lemma search_some B n t p : covers B n -> wf n t -> search B t = Some p -> exists x, leaf_at t p x /\ B x = true.
Proof.
  intros Hcov. revert p. induction t as [l c s e cs IH] using tree_ind'. intros p W H.
  pose proof W as W0. winv W.
  cbn [search] in H. destruct (B (Node l c s e cs)) eqn:HB; [|discriminate].
  pose proof (first_found_spec (search B) cs 0) as FS.
  destruct (first_found (search B) 0 cs) as [q|].
  - inversion H; subst q. destruct FS as (k & q & x & -> & H1 & H2 & _).
    rewrite Forall_forall in IH, HF. pose proof (nth_error_In _ _ H1) as Hin.
    destruct (IH x Hin q (HF x Hin) H2) as (y & [L1 L2] & By). exists y.
    split; [|exact By]. split; [|exact L2]. cbn [subtree t_children Nat.add]. now rewrite H1.
  - inversion H; subst. destruct cs as [|x cs].
    + exists (Node l c s e []). split; [split; reflexivity|exact HB].
    + exfalso. destruct (Hcov _ W0 HB) as (k & ch & E & Bch); [discriminate|]. cbn [t_children] in E.
      specialize (FS k ch E). apply search_none in FS. congruence.
Qed.

Definition monotone (B : tree -> bool) (n : nat) : Prop :=
  forall x k ch, wf n x -> nth_error (t_children x) k = Some ch -> B ch = true -> B x = true.
Definition exclusive (B : tree -> bool) (n : nat) : Prop :=
  forall x k k' ch ch', wf n x -> nth_error (t_children x) k = Some ch -> nth_error (t_children x) k' = Some ch' ->
    B ch = true -> B ch' = true -> k = k'.

Lemma wf_child n x k ch : wf n x -> nth_error (t_children x) k = Some ch -> wf n ch.
Proof.
  intros W E. destruct x as [l c s e cs]. winv W. rewrite Forall_forall in HF. apply HF.
  eapply nth_error_In; eassumption.
Qed.

Lemma mono_subtree B n t p x : monotone B n -> wf n t -> subtree t p = Some x -> B x = true -> B t = true.
Proof.
  intros M. revert t. induction p as [|i p IH]; intros t W H Bx; cbn [subtree] in H; [congruence|].
  destruct (nth_error (t_children t) i) as [ch|] eqn:E; [|discriminate].
  apply (M t i ch W E). apply (IH ch); [now apply (wf_child n t i)|assumption|assumption].
Qed.

Lemma leaf_unique B n t p x q y : monotone B n -> exclusive B n -> wf n t ->
  leaf_at t p x -> B x = true -> leaf_at t q y -> B y = true -> p = q.
Proof.
  intros M X. revert t q. induction p as [|i p IH]; intros t q W [Hx Lx] Bx [Hy Ly] By; cbn [subtree] in Hx.
  - inversion Hx; subst. destruct q as [|j q]; [reflexivity|]. cbn [subtree] in Hy. rewrite Lx in Hy. now destruct j.
  - destruct (nth_error (t_children t) i) as [ch|] eqn:E; [|discriminate].
    destruct q as [|j q]; cbn [subtree] in Hy.
    + inversion Hy; subst. rewrite Ly in E. now destruct i.
    + destruct (nth_error (t_children t) j) as [ch'|] eqn:E'; [|discriminate].
      assert (i = j) as <-.
      { apply (X t i j ch ch' W E E').
        - apply (mono_subtree B n ch p x M); [now apply (wf_child n t i)|assumption..].
        - apply (mono_subtree B n ch' q y M); [now apply (wf_child n t j)|assumption..]. }
      f_equal. rewrite E in E'. inversion E'; subst. apply (IH ch' q); [now apply (wf_child n t i)|split; assumption|assumption|split; assumption|assumption].
Qed.

(** ** arithmetic of boxes *)
Lemma pow2_pos l : (0 < 2 ^ Z.of_nat l)%Z. Proof. apply Z.pow_pos_nonneg; lia. Qed.
Lemma pow2_S l : (2 ^ Z.of_nat (S l) = 2 * 2 ^ Z.of_nat l)%Z.
Proof. rewrite Nat2Z.inj_succ, Z.pow_succ_r by lia. reflexivity. Qed.

Lemma frac_lt a l b m : (frac a l < frac b m)%Q <-> (a * 2 ^ Z.of_nat m < b * 2 ^ Z.of_nat l)%Z.
Proof. unfold frac, Qlt. cbn [Qnum Qden]. rewrite !Z2Pos.id by apply pow2_pos. tauto. Qed.
Lemma frac_le a l b m : (frac a l <= frac b m)%Q <-> (a * 2 ^ Z.of_nat m <= b * 2 ^ Z.of_nat l)%Z.
Proof. unfold frac, Qle. cbn [Qnum Qden]. rewrite !Z2Pos.id by apply pow2_pos. tauto. Qed.
Lemma frac_eq a l b m : (frac a l == frac b m)%Q <-> (a * 2 ^ Z.of_nat m = b * 2 ^ Z.of_nat l)%Z.
Proof. unfold frac, Qeq. cbn [Qnum Qden]. rewrite !Z2Pos.id by apply pow2_pos. tauto. Qed.

(* integer form of the biased containment *)
Definition Bd (b p : Z) (rl : nat) (c : Z) (l : nat) : Prop :=
  if (b =? 0)%Z then (c * 2 ^ Z.of_nat rl <= p * 2 ^ Z.of_nat l < (c + 1) * 2 ^ Z.of_nat rl)%Z
  else (c * 2 ^ Z.of_nat rl < p * 2 ^ Z.of_nat l <= (c + 1) * 2 ^ Z.of_nat rl)%Z.

Lemma biased_in_Bd b p rl x i : biased_in b (frac p rl) (lo x i) (hi x i) <-> Bd b p rl (coord x i) (t_level x).
Proof. unfold biased_in, Bd, lo, hi. destruct (b =? 0)%Z; rewrite frac_lt, frac_le; tauto. Qed.

Lemma outside_dim_spec l rl p b c : b = 0%Z \/ b = 1%Z -> (outside_dim l rl p b c = false <-> Bd b p rl c l).
Proof.
  intros Hb. unfold outside_dim. rewrite orb_false_iff, Z.ltb_ge, Z.leb_gt.
  pose proof (pow2_pos l) as Pl. pose proof (pow2_pos rl) as Pr.
  assert (E : exists A C, (2 ^ Z.of_nat (Nat.max l rl - l) = A /\ 2 ^ Z.of_nat (Nat.max l rl - rl) = C /\ 0 < A /\ 0 < C /\
              ((A = 1 /\ 2 ^ Z.of_nat l = C * 2 ^ Z.of_nat rl) \/ (C = 1 /\ 2 ^ Z.of_nat rl = A * 2 ^ Z.of_nat l)))%Z).
  { do 2 eexists. split; [reflexivity|]. split; [reflexivity|]. split; [apply pow2_pos|]. split; [apply pow2_pos|].
    destruct (Nat.le_ge_cases l rl) as [H|H].
    - right. rewrite Nat.max_r by lia. split; [now rewrite Nat.sub_diag|].
      rewrite <- Z.pow_add_r by lia. f_equal. lia.
    - left. rewrite Nat.max_l by lia. split; [now rewrite Nat.sub_diag|].
      rewrite <- Z.pow_add_r by lia. f_equal. lia. }
  destruct E as (A & C & EA & EC & PA & PC & E). rewrite EA, EC. unfold Bd.
  destruct E as [[-> E]|[-> E]]; rewrite E; destruct Hb as [-> | ->]; cbn [Z.eqb]; nia.
Qed.

Lemma Bd_split b p rl c l : Bd b p rl c l ->
  (Bd b p rl (2 * c) (S l) /\ ~ Bd b p rl (2 * c + 1) (S l)) \/ (~ Bd b p rl (2 * c) (S l) /\ Bd b p rl (2 * c + 1) (S l)).
Proof.
  unfold Bd. rewrite pow2_S. pose proof (pow2_pos rl). 
  destruct (b =? 0)%Z; intros H0; lia.
Qed.

Lemma Bd_mono b p rl c l (x : bool) : Bd b p rl (2 * c + Z.b2z x) (S l) -> Bd b p rl c l.
Proof.
  unfold Bd. rewrite pow2_S. pose proof (pow2_pos rl).
  destruct (b =? 0)%Z; destruct x; cbn [Z.b2z]; intros H0; lia.
Qed.

Lemma child_coord n x k ch i : wf n x -> nth_error (t_children x) k = Some ch -> i < n ->
  coord ch i = (2 * coord x i + Z.b2z (bit n k i))%Z /\ t_level ch = S (t_level x) /\ k < 2 ^ n.
Proof.
  intros W E Hi. destruct x as [l c s e cs]. winv W. cbn [t_children t_level] in *.
  destruct Hc as [->|[Hlen Hc]]; [now destruct k|]. destruct (Hc k ch E) as [E1 E2]. unfold coord. cbn [t_coords].
  rewrite E2, nth_child_coords by exact Hi. split; [reflexivity|]. split; [exact E1|].
  rewrite <- Hlen. apply nth_error_Some. congruence.
Qed.

Lemma child_level n x k ch : wf n x -> nth_error (t_children x) k = Some ch -> t_level ch = S (t_level x) /\ k < 2 ^ n.
Proof.
  intros W E. destruct x as [l c s e cs]. winv W. cbn [t_children t_level] in *.
  destruct Hc as [->|[Hlen Hc]]; [now destruct k|]. destruct (Hc k ch E) as [E1 E2]. split; [exact E1|].
  rewrite <- Hlen. apply nth_error_Some. congruence.
Qed.

Lemma child_exists n x k : wf n x -> t_children x <> [] -> k < 2 ^ n -> exists ch, nth_error (t_children x) k = Some ch.
Proof.
  intros W Hne Hk. destruct x as [l c s e cs]. winv W. cbn [t_children] in *.
  destruct Hc as [->|[Hlen Hc]]; [contradiction|].
  destruct (nth_error cs k) eqn:E; [eauto|]. apply nth_error_None in E. lia.
Qed.

Lemma existsb_false_iff {A} (f : A -> bool) l : existsb f l = false <-> forall x, In x l -> f x = false.
Proof.
  induction l as [|a l IH]; cbn; [split; [intros _ x []|reflexivity]|].
  rewrite orb_false_iff, IH. split.
  - intros [H1 H2] x [<-|Hx]; auto.
  - intros H; split; auto.
Qed.

Definition bias_ok (n : nat) (b : list Z) : Prop := forall i, i < n -> nth i b 0%Z = 0%Z \/ nth i b 0%Z = 1%Z.

Definition Bn (n rl : nat) (c b : list Z) (x : tree) : bool := negb (outside n rl c b x).

Lemma Bn_spec n rl c b x : bias_ok n b ->
  (Bn n rl c b x = true <-> forall i, i < n -> Bd (nth i b 0%Z) (nth i c 0%Z) rl (coord x i) (t_level x)).
Proof.
  intros Hb. unfold Bn, outside. rewrite negb_true_iff, existsb_false_iff. split.
  - intros H i Hi. apply outside_dim_spec; [now apply Hb|]. apply H. apply in_seq. lia.
  - intros H i Hi. apply in_seq in Hi. apply outside_dim_spec; [apply Hb; lia|]. apply H. lia.
Qed.

Lemma Bn_contains n rl c b x : bias_ok n b -> (Bn n rl c b x = true <-> contains_biased n rl c b x).
Proof.
  intros Hb. rewrite Bn_spec by exact Hb. unfold contains_biased.
  split; intros H i Hi; apply biased_in_Bd; auto.
Qed.

Lemma Bd_dec b p rl c l : {Bd b p rl c l} + {~ Bd b p rl c l}.
Proof.
  unfold Bd. destruct (b =? 0)%Z.
  - destruct (Z_le_dec (c * 2 ^ Z.of_nat rl) (p * 2 ^ Z.of_nat l)); [|right; lia].
    destruct (Z_lt_dec (p * 2 ^ Z.of_nat l) ((c + 1) * 2 ^ Z.of_nat rl)); [left|right]; lia.
  - destruct (Z_lt_dec (c * 2 ^ Z.of_nat rl) (p * 2 ^ Z.of_nat l)); [|right; lia].
    destruct (Z_le_dec (p * 2 ^ Z.of_nat l) ((c + 1) * 2 ^ Z.of_nat rl)); [left|right]; lia.
Qed.

Lemma Bn_covers n rl c b : bias_ok n b -> covers (Bn n rl c b) n.
Proof.
  intros Hb x W HB Hne. rewrite Bn_spec in HB by exact Hb.
  destruct (bit_surj n (fun i => if Bd_dec (nth i b 0%Z) (nth i c 0%Z) rl (2 * coord x i + 1) (S (t_level x)) then true else false))
    as (k & Hk & Hbit).
  destruct (child_exists n x k W Hne Hk) as [ch E]. exists k, ch. split; [exact E|].
  apply Bn_spec; [exact Hb|]. intros i Hi. destruct (child_coord n x k ch i W E Hi) as (-> & -> & _).
  rewrite (Hbit i Hi). specialize (HB i Hi). apply Bd_split in HB.
  destruct (Bd_dec _ _ _ _ _); cbn [Z.b2z]; [assumption|]. rewrite Z.add_0_r. tauto.
Qed.

Lemma Bn_monotone n rl c b : bias_ok n b -> monotone (Bn n rl c b) n.
Proof.
  intros Hb x k ch W E. rewrite !Bn_spec by exact Hb. intros H i Hi. specialize (H i Hi).
  destruct (child_coord n x k ch i W E Hi) as (E1 & E2 & _). rewrite E1, E2 in H. eapply Bd_mono; exact H.
Qed.

Lemma Bn_exclusive n rl c b : bias_ok n b -> exclusive (Bn n rl c b) n.
Proof.
  intros Hb x k k' ch ch' W E E' B1 B2. rewrite Bn_spec in B1, B2 by exact Hb.
  destruct (child_level n x k ch W E) as [_ Hk]. destruct (child_level n x k' ch' W E') as [_ Hk'].
  apply (bit_inj n); [assumption..|]. intros i Hi. specialize (B1 i Hi). specialize (B2 i Hi).
  destruct (child_coord n x k ch i W E Hi) as (E1 & E2 & _). rewrite E1, E2 in B1.
  destruct (child_coord n x k' ch' i W E' Hi) as (E1' & E2' & _). rewrite E1', E2' in B2.
  pose proof (Bd_mono _ _ _ _ _ _ B1) as B0. apply Bd_split in B0.
  destruct (bit n k i), (bit n k' i); cbn [Z.b2z] in *; rewrite ?Z.add_0_r in *; try reflexivity; tauto.
Qed.

Lemma nth_firstn_lt {A} i n (l : list A) d : i < n -> nth i (firstn n l) d = nth i l d.
Proof.
  revert i l. induction n as [|n IH]; intros i l Hi; [lia|]. destruct l as [|x l], i as [|i]; cbn; auto. apply IH. lia.
Qed.

Lemma find_leaf_correct n t p0 x0 rl c bias :
  reachable n t -> subtree t p0 = Some x0 -> n <= length c -> n <= length bias ->
  (forall i, i < n -> nth i bias 0%Z = 0%Z \/ nth i bias 0%Z = 1%Z) ->
  exists r, find_leaf n rl c bias x0 = Ok r /\
  match r with
  | Some p => exists x, leaf_at x0 p x /\ contains_biased n rl c bias x /\
                        forall q y, leaf_at x0 q y -> contains_biased n rl c bias y -> q = p
  | None => ~ contains_biased n rl c bias x0
  end.
Proof.
  intros R S0 Hc Hb Hbias. destruct (reachable_wf n t R) as (W0 & _ & _).
  destruct (wf_subtree n t p0 x0 W0 S0) as [W _].
  unfold find_leaf. destruct (Nat.ltb_spec (length c) n); [lia|]. destruct (Nat.ltb_spec (length bias) n); [lia|].
  eexists; split; [reflexivity|]. rewrite find_leaf_int_search.
  change (fun x => negb (outside n rl (firstn n c) (firstn n bias) x)) with (Bn n rl (firstn n c) (firstn n bias)).
  assert (Hok : bias_ok n (firstn n bias)) by (intros i Hi; rewrite nth_firstn_lt by exact Hi; auto).
  assert (EQ : forall x, Bn n rl (firstn n c) (firstn n bias) x = true <-> contains_biased n rl c bias x).
  { intros x. rewrite Bn_contains by exact Hok. unfold contains_biased.
    split; intros H1 i Hi; specialize (H1 i Hi); rewrite !nth_firstn_lt in * by exact Hi; exact H1. }
  destruct (search _ x0) as [p|] eqn:E.
  - destruct (search_some _ n x0 p (Bn_covers n rl _ _ Hok) W E) as (x & L & Bx).
    exists x. split; [exact L|]. split; [now apply EQ|]. intros q y Ly Cy.
    eapply (leaf_unique _ n x0); [apply Bn_monotone; exact Hok|apply Bn_exclusive; exact Hok|exact W|exact Ly|now apply EQ|exact L|exact Bx].
  - apply search_none in E. intros C. apply EQ in C. congruence.
Qed.

Lemma find_leaf_throws n rl c bias x0 : length c < n \/ length bias < n -> find_leaf n rl c bias x0 = Throw.
Proof.
  intros H. unfold find_leaf. destruct (Nat.ltb_spec (length c) n); [reflexivity|].
  destruct (Nat.ltb_spec (length bias) n); [reflexivity|lia].
Qed.

(** ** physical point location *)
From Coq Require Import Qfield.
Local Open Scope nat_scope.

Lemma frac_div c l : (frac c l == inject_Z c / inject_Z (2 ^ Z.of_nat l))%Q.
Proof. unfold frac. rewrite Qmake_Qdiv. rewrite Z2Pos.id by apply pow2_pos. reflexivity. Qed.

Lemma nominal_position_lo rs o x i : (nominal_position rs o x i == o i + rs * lo x i)%Q.
Proof.
  unfold nominal_position, nominal_size, lo, frac. rewrite Qmake_Qdiv. rewrite Z2Pos.id by apply pow2_pos.
  field. intros H. apply (f_equal (fun z => z)) in H. unfold Qeq in H. cbn in H. pose proof (pow2_pos (t_level x)). lia.
Qed.

Lemma nominal_position_hi rs o x i : (nominal_position rs o x i + nominal_size rs x == o i + rs * hi x i)%Q.
Proof.
  unfold nominal_position, nominal_size, hi, frac. rewrite Qmake_Qdiv. rewrite Z2Pos.id by apply pow2_pos.
  rewrite inject_Z_plus. field. intros H. unfold Qeq in H. cbn in H. pose proof (pow2_pos (t_level x)). lia.
Qed.

Lemma Qltb_false a b : Qltb a b = false <-> (b <= a)%Q.
Proof. unfold Qltb. rewrite negb_false_iff. apply Qle_bool_iff. Qed.

Lemma Bpos_spec n rs o pos x : negb (outside_pos n rs o pos x) = true <-> in_closed_box n rs o x pos.
Proof.
  unfold outside_pos, in_closed_box. rewrite negb_true_iff, existsb_false_iff. split.
  - intros H i Hi. specialize (H i ltac:(apply in_seq; lia)). apply orb_false_iff in H as [H1 H2].
    rewrite Qltb_false in H1, H2. rewrite nominal_position_hi in H2. rewrite nominal_position_lo in H1. split; assumption.
  - intros H i Hi. apply in_seq in Hi. destruct (H i ltac:(lia)) as [H1 H2]. apply orb_false_iff.
    rewrite !Qltb_false, nominal_position_hi, nominal_position_lo. split; assumption.
Qed.

Lemma child_lo n x k ch i : wf n x -> nth_error (t_children x) k = Some ch -> i < n ->
  if bit n k i then (lo ch i == (lo x i + hi x i) * (1 # 2) /\ hi ch i == hi x i)%Q
  else (lo ch i == lo x i /\ hi ch i == (lo x i + hi x i) * (1 # 2))%Q.
Proof.
  intros W E Hi. destruct (child_coord n x k ch i W E Hi) as (E1 & E2 & _).
  unfold lo, hi. rewrite E1, E2.
  assert (N : ~ (inject_Z (2 ^ Z.of_nat (t_level x)) == 0)%Q).
  { intros H. unfold Qeq in H. cbn in H. pose proof (pow2_pos (t_level x)). lia. }
  destruct (bit n k i); cbn [Z.b2z]; split; rewrite !frac_div; rewrite ?pow2_S;
    rewrite ?inject_Z_plus, ?inject_Z_mult; change (inject_Z 2) with (2#1)%Q;
    change (inject_Z 1) with 1%Q; change (inject_Z 0) with 0%Q; field; auto.
Qed.

Lemma Bpos_covers n rs o pos : (0 < rs)%Q -> covers (fun x => negb (outside_pos n rs o pos x)) n.
Proof.
  intros Hrs x W HB Hne. rewrite Bpos_spec in HB.
  destruct (bit_surj n (fun i => Qle_bool (o i + rs * ((lo x i + hi x i) * (1 # 2))) (pos i))) as (k & Hk & Hbit).
  destruct (child_exists n x k W Hne Hk) as [ch E]. exists k, ch. split; [exact E|].
  apply Bpos_spec. intros i Hi. destruct (HB i Hi) as [H1 H2]. pose proof (child_lo n x k ch i W E Hi) as C.
  specialize (Hbit i Hi). destruct (bit n k i).
  - destruct C as [C1 C2]. rewrite C1, C2. split; [|exact H2]. now apply Qle_bool_iff.
  - destruct C as [C1 C2]. rewrite C1, C2. split; [exact H1|]. 
    destruct (Qlt_le_dec (pos i) (o i + rs * ((lo x i + hi x i) * (1 # 2)))) as [L|L]; [now apply Qlt_le_weak|].
    apply Qle_bool_iff in L. congruence.
Qed.

Lemma find_leaf_pos_correct n t p0 x0 root_sz orig pos :
  reachable n t -> subtree t p0 = Some x0 -> (0 < root_sz)%Q ->
  match find_leaf_pos n root_sz orig pos x0 with
  | Some p => exists x, leaf_at x0 p x /\ in_closed_box n root_sz orig x pos
  | None => ~ in_closed_box n root_sz orig x0 pos
  end.
Proof.
  intros R S0 Hrs. destruct (reachable_wf n t R) as (W0 & _ & _).
  destruct (wf_subtree n t p0 x0 W0 S0) as [W _].
  rewrite find_leaf_pos_search. destruct (search _ x0) as [p|] eqn:E.
  - destruct (search_some _ n x0 p (Bpos_covers n root_sz orig pos Hrs) W E) as (x & L & Bx).
    exists x. split; [exact L|]. now apply Bpos_spec in Bx.
  - apply search_none in E. intros C. apply Bpos_spec in C. congruence.
Qed.
