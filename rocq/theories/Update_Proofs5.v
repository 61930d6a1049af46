(** The smoothing loop as a whole; it ends. *)
From Coq Require Import ZArith List Bool Arith Lia.
From Verif Require Import Outcome Loop Tree_Model Tree_Spec Tree_Proofs Tree_Neighbors Tree_Flood Update_Model Update_Spec
  Update_Proofs1 Update_Proofs2 Update_Proofs3 Update_Proofs4.
Import ListNotations.
Local Open Scope nat_scope.

Lemma smooth_loop_S fuel n surf st st1 ch st2 :
  ofold (mark_one n) (container st false ++ container st true) (st, false) = Ok (st1, ch) ->
  (let! st := refine_by_record n surf false st1 in refine_by_record n surf true st) = Ok st2 ->
  smooth_loop (S fuel) n surf st = if (ch : bool) then smooth_loop fuel n surf st2 else Ok st2.
Proof.
  intros E1 E2. cbn [smooth_loop]. rewrite E1. cbn [bind].
  destruct (refine_by_record n surf false st1) as [sa| | |]; cbn [bind] in E2 |- *; try discriminate. rewrite E2. reflexivity.
Qed.

Lemma smooth_ok n surf : forall fuel st, Cons n st -> No1 st ->
  smooth_loop fuel n surf st = NoFuel \/
  exists st', smooth_loop fuel n surf st = Ok st' /\ finer n surf st st' /\ No1 st' /\ balanced n st'.
Proof.
  induction fuel as [|fuel IH]; intros st C N; [now left|].
  destruct (smooth_iter n surf st C N) as (st1 & ch & st2 & E1 & E2 & F & N2 & H0 & H1 & H2).
  rewrite (smooth_loop_S fuel n surf st st1 ch st2 E1 E2). destruct ch.
  - destruct (IH st2 (f_cons _ _ _ _ F) N2) as [K|(st' & K1 & K2 & K3 & K4)]; [now left|right].
    exists st'. split; [exact K1|]. split; [eapply finer_trans; eauto|]. auto.
  - right. exists st2. split; [reflexivity|]. split; [exact F|]. split; [exact N2|].
    apply needs_balanced; [apply (f_cons _ _ _ _ F)|]. apply H0. reflexivity.
Qed.

(** ** termination *)
Fixpoint all_paths (n D : nat) : list path :=
  match D with
  | O => [[]]
  | S D' => [] :: flat_map (fun k => map (cons k) (all_paths n D')) (seq 0 (2 ^ n))
  end.
Lemma all_paths_in n : forall D p, length p <= D -> Forall (fun k => k < 2 ^ n) p -> In p (all_paths n D).
Proof.
  induction D as [|D IH]; intros p L F; cbn [all_paths].
  - destruct p; [now left|cbn in L; lia].
  - destruct p as [|k p]; [now left|]. right. inversion F; subst. apply in_flat_map. exists k. split; [apply in_seq; lia|].
    apply in_map. apply IH; [cbn in L; lia|assumption].
Qed.

Lemma path_entries n t p x : wf n t -> subtree t p = Some x -> Forall (fun k => k < 2 ^ n) p.
Proof.
  revert t. induction p as [|k p IH]; intros t W H; [constructor|]. cbn [subtree] in H.
  destruct (nth_error (t_children t) k) as [ch|] eqn:E; [|discriminate]. constructor.
  - apply (child_level n t k ch W E).
  - apply (IH ch); [apply (wf_child n t k ch W E)|exact H].
Qed.

Definition depth_le (st : state) (D : nat) : Prop := forall q, inf st q <> None -> length q <= D.

Lemma inf_node st q : inf st q <> None <-> node_at (s_tree st) q.
Proof.
  unfold inf, info, node_at. destruct (subtree (s_tree st) q) as [x|].
  - split; [eauto|intros _; discriminate].
  - split; [intros H; now contradict H|]. intros [x E]. discriminate.
Qed.

Lemma depth_exists n st : Cons n st -> exists D, depth_le st D.
Proof.
  intros _. destruct (count_correct (s_tree st)) as (l & _ & Hl & _).
  exists (list_max (map (@List.length nat) l)). intros q Hq. apply inf_node, Hl in Hq.
  pose proof (list_max_le (map (@List.length nat) l) (list_max (map (@List.length nat) l))) as [K _].
  specialize (K (le_n _)). rewrite Forall_forall in K. apply K. now apply in_map.
Qed.

Lemma count_bound n st D : Cons n st -> depth_le st D -> count (s_tree st) <= length (all_paths n D).
Proof.
  intros [R _] H. destruct (count_correct (s_tree st)) as (l & ND & Hl & ->). apply NoDup_incl_length; [exact ND|].
  intros q Hq. apply Hl in Hq. pose proof (proj2 (inf_node st q) Hq) as Hi. destruct Hq as [x Hx].
  destruct (reachable_wf n _ R) as (W & _). apply all_paths_in; [now apply H|]. apply (path_entries n _ q x W Hx).
Qed.

Lemma count_grows st st' q : (forall q, inf st q <> None -> inf st' q <> None) -> inf st q = None -> inf st' q <> None ->
  count (s_tree st) < count (s_tree st').
Proof.
  intros H H1 H2. destruct (count_correct (s_tree st)) as (l & ND & Hl & ->). destruct (count_correct (s_tree st')) as (l' & ND' & Hl' & ->).
  change (length (q :: l) <= length l'). apply NoDup_incl_length.
  - constructor; [|exact ND]. intros K. apply Hl, inf_node in K. contradiction.
  - intros p [<-|Hp]; apply Hl', inf_node; [exact H2|]. apply H, inf_node, Hl, Hp.
Qed.

Lemma nonleaf_child n st q e s : Cons n st -> inf st q = Some (false, e, s) -> inf st (q ++ [0]) <> None.
Proof.
  intros [R _] H. destruct (inf_subtree _ _ _ H) as (x & Hx & Ev). injection Ev as E _ _.
  destruct (reachable_wf n _ R) as (W & _). destruct (wf_subtree n _ q x W Hx) as [Wx _].
  destruct (child_exists n x 0 Wx) as [ch Hch].
  - intros K. apply is_leaf_true in K. congruence.
  - pose proof (Nat.pow_nonzero 2 n). lia.
  - unfold inf, info. rewrite subtree_app, Hx. cbn [subtree]. rewrite Hch. discriminate.
Qed.
Lemma leaf_child st q e s k r : inf st q = Some (true, e, s) -> inf st (q ++ k :: r) = None.
Proof.
  intros H. destruct (inf_subtree _ _ _ H) as (x & Hx & Ev). injection Ev as E _ _. symmetry in E. apply is_leaf_true in E.
  unfold inf, info. rewrite subtree_app, Hx. cbn. rewrite E. now destruct k.
Qed.

Lemma smooth_ends n surf D : forall k st, Cons n st -> No1 st -> depth_le st D -> length (all_paths n D) - count (s_tree st) < k ->
  smooth_loop k n surf st <> NoFuel.
Proof.
  induction k as [|k IH]; intros st C N HD Hk; [lia|].
  destruct (smooth_iter n surf st C N) as (st1 & ch & st2 & E1 & E2 & F & N2 & H0 & H1 & H2).
  rewrite (smooth_loop_S k n surf st st1 ch st2 E1 E2). destruct ch; [|discriminate].
  pose proof (f_cons _ _ _ _ F) as C2.
  assert (HD2 : depth_le st2 D).
  { intros q Hq. destruct (H1 q Hq) as [K|(p & K1 & K2 & K3)]; [now apply HD|].
    apply is_child_spec in K1 as (j & _ & ->). rewrite app_length. cbn [List.length].
    destruct (exists_leaf n st p C K2) as (e & s & Hp). destruct (inf_subtree _ _ _ Hp) as (x & Hx & _).
    destruct (needs_refine_ok n st p x (proj1 C) Hx) as (b & Eb & Hb). assert (b = true) by congruence. subst b.
    destruct (proj1 Hb eq_refl) as (d & r & y & _ & [Hy _] & _ & _ & L).
    rewrite (level_path n st p x (proj1 C) Hx), (level_path n st r y (proj1 C) Hy) in L.
    assert (length r <= D); [|lia]. apply HD. unfold inf, info. rewrite Hy. discriminate. }
  apply IH; try assumption.
  destruct (H2 eq_refl) as (p & K1 & K2 & [e s] & K3). cbn in K3.
  destruct (exists_leaf n st p C K1) as (e0 & s0 & Hp).
  assert (G : count (s_tree st) < count (s_tree st2)).
  { apply (count_grows st st2 (p ++ [0])).
    - intros q Hq. apply (f_node _ _ _ _ F q Hq).
    - apply (leaf_child st p e0 s0). exact Hp.
    - apply (nonleaf_child n st2 p e s C2 K3). }
  pose proof (count_bound n st2 D C2 HD2). lia.
Qed.

Lemma smooth_total n surf st : Cons n st -> No1 st ->
  exists k0, forall k, k0 <= k -> exists st', smooth_loop k n surf st = Ok st' /\ finer n surf st st' /\ No1 st' /\ balanced n st'.
Proof.
  intros C N. destruct (depth_exists n st C) as [D HD]. exists (S (length (all_paths n D))). intros k Hk.
  destruct (smooth_ok n surf k st C N) as [K|K]; [exfalso|exact K].
  apply (smooth_ends n surf D k st C N HD); [lia|exact K].
Qed.
