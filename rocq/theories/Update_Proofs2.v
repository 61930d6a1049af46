(** Refinement: [refine_set_status], [refine_one], [refine_by_record]. *)
From Coq Require Import ZArith List Bool Arith Lia.
From Verif Require Import Outcome Loop Tree_Model Tree_Spec Tree_Proofs Tree_Neighbors Tree_Flood Update_Model Update_Spec Update_Proofs1.
Import ListNotations.
Local Open Scope nat_scope.

Definition surf_status (surf : path -> bool) (q : path) : Z := if surf q then 0%Z else (-1)%Z.

Lemma path_eqb_refl p : path_eqb p p = true.
Proof. now destruct (path_eqb_spec p p). Qed.
Lemma path_eqb_sym p q : path_eqb p q = path_eqb q p.
Proof. destruct (path_eqb_spec p q), (path_eqb_spec q p); congruence. Qed.

Definition in_paths (q : path) (l : list path) : bool := existsb (path_eqb q) l.
Lemma in_paths_spec q l : in_paths q l = true <-> In q l.
Proof.
  unfold in_paths. rewrite existsb_exists. split; [|intros H; exists q; split; [exact H|apply path_eqb_refl]].
  intros (x & Hx & E). destruct (path_eqb_spec q x); [now subst|discriminate].
Qed.

Lemma set_statuses n surf : forall l st, Cons n st -> NoDup l -> (forall q, In q l -> inf st q = Some (true, None, unprocessed)) ->
  exists st', ofold (fun q st => on_tree n (Set_status q (surf_status surf q)) st) l st = Ok st' /\ Cons n st' /\
    s_elems st' = s_elems st /\ (forall q, elem_at st' q = elem_at st q) /\
    forall q, inf st' q = if in_paths q l then Some (true, None, surf_status surf q) else inf st q.
Proof.
  induction l as [|p l IH]; intros st C ND H; cbn [ofold].
  - exists st. repeat split; auto. apply C. apply C.
  - inversion ND as [|? ? Hni Hnd]; subst.
    destruct (step_status n st p (surf_status surf p) _ C (H p (or_introl eq_refl))) as (st1 & E1 & C1 & L1 & A1 & I1).
    rewrite E1. cbn [bind].
    destruct (IH st1 C1 Hnd) as (st2 & E2 & C2 & L2 & A2 & I2).
    { intros q Hq. rewrite I1. destruct (path_eqb_spec q p) as [->|]; [contradiction|]. apply H. now right. }
    exists st2. split; [exact E2|]. split; [exact C2|]. split; [congruence|]. split; [intros q; now rewrite A2, A1|].
    intros q. rewrite I2, I1. cbn [in_paths existsb]. fold (in_paths q l). destruct (path_eqb_spec q p) as [->|]; cbn [orb]; [|reflexivity].
    destruct (in_paths p l) eqn:Ep; [now apply in_paths_spec in Ep|]. reflexivity.
Qed.

Lemma in_paths_child n p q : in_paths q (child_paths n p) = is_child n p q.
Proof. reflexivity. Qed.

Lemma child_not_self n p q : is_child n p q = true -> q <> p.
Proof.
  intros H E. apply is_child_spec in H as (k & _ & ->). apply (f_equal (@List.length nat)) in E. rewrite app_length in E. cbn in E. lia.
Qed.

Lemma refine_set_status_ok n surf p st e s : Cons n st -> inf st p = Some (true, e, s) -> exists_at st p = false ->
  exists st', refine_set_status n surf p st = Ok st' /\ Cons n st' /\ s_elems st' = s_elems st /\
    (forall q, elem_at st' q = elem_at st q) /\
    (forall q, inf st' q = if path_eqb q p then Some (false, e, s) else if is_child n p q then Some (true, None, surf_status surf q) else inf st q).
Proof.
  intros C Hp Hn. unfold refine_set_status. destruct (step_refine n st p e s C Hp Hn) as (st1 & E1 & C1 & L1 & A1 & I1).
  rewrite E1. cbn [bind].
  destruct (set_statuses n surf (child_paths n p) st1 C1 (child_paths_nodup n p)) as (st2 & E2 & C2 & L2 & A2 & I2).
  { intros q Hq. rewrite I1. apply in_paths_spec in Hq. rewrite in_paths_child in Hq.
    pose proof (child_not_self n p q Hq). destruct (path_eqb_spec q p); [contradiction|]. now rewrite Hq. }
  exists st2. split; [exact E2|]. split; [exact C2|]. split; [congruence|]. split; [intros q; now rewrite A2, A1|].
  intros q. rewrite I2, I1, in_paths_child. destruct (is_child n p q) eqn:Ec; [|now destruct (path_eqb q p)].
  pose proof (child_not_self n p q Ec). now destruct (path_eqb_spec q p).
Qed.

Lemma add_elems n d : forall l st, Cons n st -> NoDup l -> (forall q, In q l -> exists s, inf st q = Some (true, None, s)) ->
  exists st', ofold (fun q st => add_elem n d q st) l st = Ok st' /\ Cons n st' /\
    s_elems st' = s_elems st ++ map (fun q => mk_elem (Some q) d 0%Z false) l /\
    (forall q, in_paths q l = false -> inf st' q = inf st q) /\
    (forall q, in_paths q l = true -> exists j s, inf st q = Some (true, None, s) /\ inf st' q = Some (true, Some (Z.of_nat j), s) /\
       length (s_elems st) <= j /\ nth_error (s_elems st') j = Some (mk_elem (Some q) d 0%Z false)).
Proof.
  induction l as [|p l IH]; intros st C ND H; cbn [ofold].
  - exists st. cbn [map in_paths existsb]. rewrite app_nil_r. split; [reflexivity|]. split; [exact C|]. split; [reflexivity|]. split; [reflexivity|discriminate].
  - inversion ND as [|? ? Hni Hnd]; subst. destruct (H p (or_introl eq_refl)) as [s0 H0].
    destruct (step_add n d st p _ _ C H0) as (st1 & E1 & C1 & L1 & A1 & I1). rewrite E1. cbn [bind].
    destruct (IH st1 C1 Hnd) as (st2 & E2 & C2 & L2 & I2 & J2).
    { intros q Hq. rewrite I1. destruct (path_eqb_spec q p) as [->|]; [contradiction|]. apply H. now right. }
    exists st2. split; [exact E2|]. split; [exact C2|]. split; [rewrite L2, L1, <- app_assoc; reflexivity|].
    assert (Ep : in_paths p l = false) by (destruct (in_paths p l) eqn:E; [now apply in_paths_spec in E|reflexivity]).
    split.
    + intros q Hq. cbn [in_paths existsb] in Hq. fold (in_paths q l) in Hq. apply orb_false_iff in Hq as [Q1 Q2].
      rewrite I2 by exact Q2. rewrite I1, Q1. reflexivity.
    + intros q Hq. cbn [in_paths existsb] in Hq. fold (in_paths q l) in Hq. destruct (path_eqb_spec q p) as [Eqp|Hne]; [rewrite Eqp in *|].
      * exists (length (s_elems st)), s0. rewrite I2 by exact Ep. rewrite I1, path_eqb_refl. repeat split; try assumption; [lia|].
        rewrite L2, L1, <- app_assoc. rewrite nth_error_app2, Nat.sub_diag by lia. reflexivity.
      * cbn [orb] in Hq. destruct (J2 q Hq) as (j & s & K1 & K2 & K3 & K4). exists j, s.
        rewrite I1 in K1. destruct (path_eqb_spec q p); [contradiction|]. repeat split; try assumption.
        rewrite L1, app_length in K3. lia.
Qed.

(** what one pass of [refine_by_record] does to an element on the node [p] *)
Definition refined (n : nat) (surf : path -> bool) (d : bool) (i : nat) (p : path) (s : Z) (st st' : state) : Prop :=
  Cons n st' /\
  s_elems st' = s_elems (set_record i 2 st) ++ map (fun q => mk_elem (Some q) d 0%Z false) (child_paths n p) /\
  (inf st' p = Some (false, Some (Z.of_nat i), s)) /\
  (forall q, is_child n p q = true -> exists j, inf st' q = Some (true, Some (Z.of_nat j), surf_status surf q) /\
       length (s_elems st) <= j /\ nth_error (s_elems st') j = Some (mk_elem (Some q) d 0%Z false)) /\
  (forall q, q <> p -> is_child n p q = false -> inf st' q = inf st q).

Lemma refine_one_ok n surf d i p st : Cons n st -> elem_at st p = Some i -> record_of st i = 1%Z ->
  exists st' s, refine_one n surf d i st = Ok st' /\ inf st p = Some (true, Some (Z.of_nat i), s) /\ refined n surf d i p s st st'.
Proof.
  intros C Hp Hr. unfold refine_one. rewrite (proj2 (tree_of_at n st i p C) Hp), Hr. cbn [Z.eqb Pos.eqb].
  destruct (elem_at_cons n st p i C Hp) as (e & lf & s & K1 & K2 & K3 & K4).
  rewrite <- (record_of_nth _ _ _ K1), Hr in K4. rewrite (K4 ltac:(lia)) in K3.
  assert (C0 : Cons n (set_record i 2 st)) by (apply Cons_set; [exact C|now left]).
  assert (X0 : exists_at (set_record i 2 st) p = false).
  { unfold exists_at. rewrite elem_at_set, Hp, record_set, Nat.eqb_refl. pose proof (elem_at_lt n st p i C Hp).
    now destruct (Nat.ltb_spec i (length (s_elems st))); [|lia]. }
  destruct (refine_set_status_ok n surf p (set_record i 2 st) _ _ C0 K3 X0) as (st1 & E1 & C1 & L1 & A1 & I1).
  rewrite E1. cbn [bind].
  assert (NS : forall q, is_child n p q = true -> path_eqb q p = false).
  { intros q Hq. pose proof (child_not_self n p q Hq). now destruct (path_eqb_spec q p). }
  destruct (add_elems n d (child_paths n p) st1 C1 (child_paths_nodup n p)) as (st2 & E2 & C2 & L2 & I2 & J2).
  { intros q Hq. exists (surf_status surf q). apply in_paths_spec in Hq. rewrite in_paths_child in Hq.
    rewrite I1, (NS q Hq), Hq. reflexivity. }
  exists st2, s. split; [exact E2|]. split; [exact K3|]. split; [exact C2|]. split; [rewrite L2, L1; reflexivity|].
  assert (NP : is_child n p p = false) by (destruct (is_child n p p) eqn:E; [now apply child_not_self in E|reflexivity]).
  split; [|split].
  - rewrite I2 by (rewrite in_paths_child; exact NP). rewrite I1, path_eqb_refl. reflexivity.
  - intros q Hq. destruct (J2 q Hq) as (j & s' & K5 & K6 & K7 & K8). rewrite I1, (NS q Hq), Hq in K5. injection K5 as <-.
    exists j. split; [exact K6|]. split; [|exact K8]. rewrite L1, length_set in K7. exact K7.
  - intros q Hne Hq. rewrite I2 by exact Hq. rewrite I1, Hq. destruct (path_eqb_spec q p); [contradiction|]. reflexivity.
Qed.

Section refined_facts.
Variables (n : nat) (surf : path -> bool) (d : bool) (i : nat) (p : path) (s : Z) (st st' : state).
Hypothesis C : Cons n st.
Hypothesis Hp : inf st p = Some (true, Some (Z.of_nat i), s).
Hypothesis D : refined n surf d i p s st st'.

Lemma ref_at : elem_at st p = Some i.
Proof. rewrite elem_at_info, Hp, Nat2Z.id. reflexivity. Qed.
Lemma ref_lt : i < length (s_elems st).
Proof. apply (elem_at_lt n st p i C ref_at). Qed.

Lemma ref_length : length (s_elems st') = length (s_elems st) + 2 ^ n.
Proof. destruct D as (_ & E & _). rewrite E, app_length, length_set, map_length. unfold child_paths. now rewrite map_length, seq_length. Qed.

Lemma ref_nth j : j < length (s_elems st) -> nth_error (s_elems st') j =
  if i =? j then option_map (put_record 2) (nth_error (s_elems st) j) else nth_error (s_elems st) j.
Proof. intros L. destruct D as (_ & E & _). rewrite E, nth_error_app1 by (rewrite length_set; exact L). apply nth_set. Qed.

Lemma ref_record j : j < length (s_elems st) -> record_of st' j = if i =? j then 2%Z else record_of st j.
Proof.
  intros L. unfold record_of. rewrite ref_nth by exact L. destruct (i =? j); [|reflexivity].
  destruct (nth_error (s_elems st) j); reflexivity.
Qed.
Lemma ref_new j e : length (s_elems st) <= j -> nth_error (s_elems st') j = Some e ->
  e_record e = 0%Z /\ e_locked e = false /\ exists q, is_child n p q = true /\ e_path e = Some q.
Proof.
  intros L H. destruct D as (_ & E & _). rewrite E, nth_error_app2 in H by (rewrite length_set; exact L).
  apply nth_error_In, in_map_iff in H as (q & <- & Hq). split; [reflexivity|]. split; [reflexivity|]. exists q. split; [|reflexivity].
  now apply in_paths_spec in Hq.
Qed.

Lemma ref_grows : grows st st'.
Proof.
  split; [rewrite ref_length; lia|]. intros j e H. assert (L : j < length (s_elems st)) by (apply nth_error_Some; congruence).
  rewrite ref_nth, H by exact L. destruct (i =? j).
  - exists (put_record 2 e). repeat split.
  - exists e. repeat split; auto.
Qed.

Lemma ref_elem_at q : is_child n p q = false -> elem_at st' q = elem_at st q.
Proof.
  intros Hq. rewrite !elem_at_info. destruct D as (_ & _ & D1 & _ & D2). destruct (path_eqb_spec q p) as [->|Hne].
  - now rewrite D1, Hp.
  - now rewrite D2.
Qed.
Lemma ref_child_none q : is_child n p q = true -> inf st q = None.
Proof.
  intros Hq. apply is_child_spec in Hq as (k & _ & ->). destruct (inf_subtree _ _ _ Hp) as (x & Hx & Ev). injection Ev as E1 _ _.
  symmetry in E1. apply is_leaf_true in E1. unfold inf, info. rewrite subtree_app, Hx. cbn. rewrite E1. now destruct k.
Qed.

Lemma ref_whole : Whole st -> Whole st'.
Proof.
  intros W j e q H1 H2 H3. destruct (Nat.lt_ge_cases j (length (s_elems st))) as [L|L].
  - rewrite ref_nth in H1 by exact L. destruct (Nat.eqb_spec i j) as [->|Hne].
    + destruct (nth_error (s_elems st) j); [|discriminate]. injection H1 as <-. now cbn in H3.
    + pose proof (W j e q H1 H2 H3) as K. destruct (is_child n p q) eqn:Ec; [|now rewrite ref_elem_at].
      rewrite elem_at_info, (ref_child_none q Ec) in K. discriminate.
  - destruct D as (_ & E & _). 
    assert (exists k, j = length (s_elems st) + k) as [k ->] by (exists (j - length (s_elems st)); lia).
    rewrite E, nth_error_app2 in H1 by (rewrite length_set; lia). rewrite length_set in H1.
    replace (length (s_elems st) + k - length (s_elems st)) with k in H1 by lia.
    destruct (ref_new (length (s_elems st) + k) e) as (_ & _ & q' & Hq' & Eq); [lia| |].
    { rewrite E, nth_error_app2 by (rewrite length_set; lia). rewrite length_set.
      replace (length (s_elems st) + k - length (s_elems st)) with k by lia. exact H1. }
    rewrite Eq in H2. injection H2 as ->.
    destruct D as (_ & _ & _ & D1 & _). destruct (D1 q Hq') as (j' & K1 & K2 & K3).
    rewrite elem_at_info, K1, Nat2Z.id. f_equal.
    rewrite E, nth_error_app2 in K3 by (rewrite length_set; lia). rewrite length_set in K3.
    rewrite nth_error_map in H1, K3.
    destruct (nth_error (child_paths n p) k) as [qa|] eqn:Qa; [|discriminate].
    destruct (nth_error (child_paths n p) (j' - length (s_elems st))) as [qb|] eqn:Qb; [|discriminate].
    cbn in H1, K3. injection H1 as <-. injection K3 as ->. cbn in Eq. injection Eq as ->.
    pose proof (proj1 (NoDup_nth_error (child_paths n p)) (child_paths_nodup n p) k (j' - length (s_elems st))) as U.
    rewrite Qa, Qb in U. assert (k < length (child_paths n p)) as Lk by (apply nth_error_Some; congruence).
    specialize (U Lk eq_refl). lia.
Qed.

Lemma ref_inf_some q : inf st q <> None -> inf st' q <> None.
Proof.
  intros H. destruct D as (_ & _ & D1 & D2 & D3). destruct (path_eqb_spec q p) as [->|Hne]; [rewrite D1; discriminate|].
  destruct (is_child n p q) eqn:Ec; [now rewrite (ref_child_none q Ec) in H|]. now rewrite D3.
Qed.
End refined_facts.

(** ** [needs_refine] *)
Lemma face_dir_length n f : length (face_dir n f) = n.
Proof. unfold face_dir, direct. now rewrite map_length, seq_length. Qed.
Lemma diag_dir_length n f g : length (diag_dir n f g) = n.
Proof. unfold diag_dir. now rewrite map_length, seq_length. Qed.
Lemma needs_dirs_length n b dir : In dir (needs_dirs n b) -> length dir = n.
Proof.
  unfold needs_dirs. rewrite in_flat_map. intros (f & _ & [<-|H]); [apply face_dir_length|]. destruct b; [|contradiction].
  apply in_map_iff in H as (g & <- & _). apply diag_dir_length.
Qed.

Lemma level_path n st p x : reachable n (s_tree st) -> subtree (s_tree st) p = Some x -> t_level x = length p.
Proof.
  intros R H. destruct (reachable_wf n _ R) as (W & L & _). destruct (wf_subtree n _ p x W H) as [_ E]. lia.
Qed.

Lemma any_too_fine_ok n st p x rl : reachable n (s_tree st) -> subtree (s_tree st) p = Some x -> forall dirs, (forall d, In d dirs -> length d = n) ->
  exists b, any_too_fine n st p rl dirs = Ok b /\
    (b = true <-> exists d q y, In d dirs /\ leaf_at (s_tree st) q y /\ touches n d x y /\ exists_at st q = true /\ rl + 1 < t_level y).
Proof.
  intros R Hx. induction dirs as [|d dirs IH]; intros L; cbn [any_too_fine].
  - exists false. split; [reflexivity|]. split; [discriminate|]. intros (d & q & y & [] & _).
  - destruct (find_neighbors_correct n (s_tree st) p x d R Hx) as (l & E & _ & _ & Hl).
    { rewrite (L d (or_introl eq_refl)). lia. }
    rewrite E. cbn [bind].
    assert (T : existsb (too_fine st rl) l = true <-> exists q y, leaf_at (s_tree st) q y /\ touches n d x y /\ exists_at st q = true /\ rl + 1 < t_level y).
    { rewrite existsb_exists. unfold too_fine, level_at. split.
      - intros (q & Hq & H). apply Hl in Hq as (y & K1 & K2). pose proof K1 as [K3 _]. rewrite K3, andb_true_iff, Nat.ltb_lt in H.
        exists q, y. tauto.
      - intros (q & y & K1 & K2 & K3 & K4). exists q. split; [apply Hl; eauto|]. destruct K1 as [K1 _]. rewrite K1, K3. cbn.
        now apply Nat.ltb_lt. }
    destruct (existsb (too_fine st rl) l).
    + exists true. split; [reflexivity|]. split; [|reflexivity]. intros _. destruct (proj1 T eq_refl) as (q & y & H). exists d, q, y.
      split; [now left|exact H].
    + destruct (IH (fun d' H => L d' (or_intror H))) as (b & Eb & Hb). exists b. split; [exact Eb|]. rewrite Hb. split.
      * intros (d' & q & y & H1 & H2). exists d', q, y. split; [now right|exact H2].
      * intros (d' & q & y & [<-|H1] & H2); [|exists d', q, y; auto]. exfalso.
        assert (false = true) by (apply T; exists q, y; exact H2). discriminate.
Qed.

Lemma needs_refine_ok n st p x : reachable n (s_tree st) -> subtree (s_tree st) p = Some x ->
  exists b, needs_refine n st p = Ok b /\
    (b = true <-> exists d q y, In d (needs_dirs n (match t_elem x with Some _ => true | None => false end)) /\
                  leaf_at (s_tree st) q y /\ touches n d x y /\ exists_at st q = true /\ t_level x + 1 < t_level y).
Proof.
  intros R Hx. unfold needs_refine. rewrite Hx. cbn [of_option_ub bind]. apply any_too_fine_ok; [exact R|exact Hx|].
  intros d. apply needs_dirs_length.
Qed.
