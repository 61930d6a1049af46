(** Deleting the marked elements after an update leaves a mesh that can be updated again. *)
From Coq Require Import ZArith List Bool Arith Lia.
From Verif Require Import Outcome Loop Tree_Model Tree_Spec Tree_Proofs Tree_Neighbors Tree_Flood Update_Model Update_Spec
  Update_Proofs1 Update_Proofs2 Update_Proofs3 Update_Proofs4 Update_Proofs5 Update_Proofs6 Update_Proofs7 Update_Proofs8.
Import ListNotations.
Local Open Scope nat_scope.

(** ** any pairing of nodes with elements can be reached *)
Fixpoint forget_elem (t : tree) : tree :=
  match t with Node l c s _ cs => Node l c s None (map forget_elem cs) end.

Lemma forget_elem_subtree t p : subtree (forget_elem t) p = option_map forget_elem (subtree t p).
Proof.
  revert t. induction p as [|i p IH]; intros [l c s e cs]; cbn [subtree forget_elem t_children]; [reflexivity|].
  rewrite nth_error_map. destruct (nth_error cs i) as [ch|]; cbn [option_map]; [apply IH|reflexivity].
Qed.

Lemma tree_eq a : forall b, forget_elem a = forget_elem b ->
  (forall p x y, subtree a p = Some x -> subtree b p = Some y -> t_elem x = t_elem y) -> a = b.
Proof.
  induction a as [l c s e cs IH] using tree_ind'. intros [l' c' s' e' cs'] E H. cbn [forget_elem] in E. injection E as -> -> -> E.
  f_equal.
  - apply (H [] _ _ eq_refl eq_refl).
  - assert (H' : forall k ch ch', nth_error cs k = Some ch -> nth_error cs' k = Some ch' -> forall p x y, subtree ch p = Some x -> subtree ch' p = Some y -> t_elem x = t_elem y).
    { intros k ch ch' K1 K2 p x y X Y. apply (H (k :: p)); cbn [subtree t_children]; [now rewrite K1|now rewrite K2]. }
    clear H. revert cs' E H'. induction IH as [|ch cs Hch IH IHl]; intros cs' E H'; destruct cs' as [|ch' cs']; cbn [map] in E; try discriminate; [reflexivity|].
    injection E as E1 E2. f_equal.
    + apply Hch; [exact E1|]. apply (H' 0 ch ch' eq_refl eq_refl).
    + apply IHl; [exact E2|]. intros k x y K1 K2. apply (H' (S k) x y K1 K2).
Qed.

Lemma forget_elem_set p z t : forget_elem (update p (set_elem_node z) t) = forget_elem t.
Proof.
  revert t. induction p as [|i p IH]; intros [l c s' e cs]; cbn [update set_elem_node forget_elem]; [reflexivity|].
  f_equal. revert i. induction cs as [|ch cs IHc]; intros [|i]; cbn [update_nth map]; try reflexivity; f_equal; auto.
Qed.

Lemma run_set_elems n (g : path -> option Z) : forall l t, (forall p, In p l -> node_at t p) ->
  exists t', tree_run n t (map (fun p => Set_elem p (g p)) l) = Ok t' /\ forget_elem t' = forget_elem t /\
    forall q, info t' q = if in_paths q l then option_map (fun v => (fst (fst v), g q, snd v)) (info t q) else info t q.
Proof.
  induction l as [|p l IH]; intros t H; cbn [map tree_run].
  - exists t. repeat split.
  - destruct (H p (or_introl eq_refl)) as [x Hx]. cbn [tree_step]. rewrite Hx. cbn [of_option_ub bind].
    set (t1 := update p (set_elem_node (g p)) t).
    assert (I1 : forall q, info t1 q = if path_eqb q p then option_map (fun v => (fst (fst v), g p, snd v)) (info t q) else info t q).
    { intros q. unfold t1. rewrite info_set_elem. destruct (path_eqb_spec q p) as [->|]; [|reflexivity].
      unfold info. rewrite Hx. reflexivity. }
    destruct (IH t1) as (t' & E & F & I).
    { intros q Hq. destruct (H q (or_intror Hq)) as [y Hy]. specialize (I1 q). unfold info in I1. rewrite Hy in I1. unfold node_at.
      destruct (subtree t1 q); [eauto|]. destruct (path_eqb q p); discriminate. }
    exists t'. split; [exact E|]. split; [rewrite F; apply forget_elem_set|]. intros q. rewrite I, I1. cbn [in_paths existsb]. fold (in_paths q l).
    destruct (path_eqb_spec q p) as [->|]; cbn [orb]; [|reflexivity]. destruct (in_paths p l); [|reflexivity].
    destruct (info t p) as [v|]; reflexivity.
Qed.

Lemma repair_subtree st t p : subtree (repair st t) p = option_map (repair st) (subtree t p).
Proof.
  revert t. induction p as [|i p IH]; intros [l c s e cs]; cbn [subtree repair t_children]; [reflexivity|].
  rewrite nth_error_map. destruct (nth_error cs i) as [ch|]; cbn [option_map]; [apply IH|reflexivity].
Qed.
Lemma repair_forget st t : forget_elem (repair st t) = forget_elem t.
Proof.
  induction t as [l c s e cs IH] using tree_ind'. cbn [repair forget_elem]. f_equal. rewrite map_map.
  induction IH as [|ch cs Hch IH IHl]; [reflexivity|]. cbn [map]. now rewrite Hch, IHl.
Qed.

Lemma repair_reachable n st t : reachable n t -> reachable n (repair st t).
Proof.
  intros [ops R]. set (g := fun p => match subtree (repair st t) p with Some x => t_elem x | None => None end).
  destruct (run_set_elems n g (nodes t) t) as (t' & E & F & I). { intros p Hp. now apply nodes_in. }
  exists (ops ++ map (fun p => Set_elem p (g p)) (nodes t)). rewrite run_app, R. cbn [bind].
  assert (t' = repair st t) as <-; [|exact E]. apply tree_eq; [rewrite F, repair_forget; reflexivity|].
  intros p x y Hx Hy. specialize (I p). unfold info at 1 in I. rewrite Hx in I.
  assert (Hn : node_at t p).
  { pose proof (forget_elem_subtree t' p) as K. pose proof (forget_elem_subtree t p) as K'. rewrite F, Hx, K' in K. unfold node_at.
    destruct (subtree t p); [eauto|discriminate]. }
  assert (in_paths p (nodes t) = true) as B by (apply in_paths_spec, nodes_in; exact Hn). rewrite B in I.
  destruct Hn as [x0 Hx0]. unfold info in I. rewrite Hx0 in I. cbn in I. injection I as _ I _. rewrite I. unfold g. now rewrite Hy.
Qed.

(** ** numbers after [purge] *)
Lemma filter_nth {A} (f : A -> bool) : forall l i e, nth_error l i = Some e -> f e = true ->
  nth_error (filter f l) (length (filter f (firstn i l))) = Some e.
Proof.
  induction l as [|a l IH]; intros [|i] e H Hf; cbn in *; try discriminate.
  - injection H as ->. now rewrite Hf.
  - destruct (f a); cbn; apply IH; assumption.
Qed.
Lemma filter_nth_inv {A} (f : A -> bool) : forall l j e, nth_error (filter f l) j = Some e ->
  exists i, nth_error l i = Some e /\ f e = true /\ j = length (filter f (firstn i l)).
Proof.
  induction l as [|a l IH]; intros j e H; [destruct j; discriminate|]. cbn [filter] in H. destruct (f a) eqn:Ef.
  - destruct j as [|j]; cbn in H.
    + injection H as ->. exists 0. auto.
    + destruct (IH j e H) as (i & H1 & H2 & ->). exists (S i). cbn. rewrite Ef. auto.
  - destruct (IH j e H) as (i & H1 & H2 & ->). exists (S i). cbn. rewrite Ef. auto.
Qed.

Lemma purge_elem st p x : subtree (s_tree (purge st)) p = Some x -> exists x0, subtree (s_tree st) p = Some x0 /\ x = repair st x0.
Proof.
  cbn [purge s_tree]. rewrite repair_subtree. destruct (subtree (s_tree st) p) as [x0|]; [|discriminate]. cbn. intros H. injection H as <-. eauto.
Qed.

Lemma purge_settled n st : consistent n st -> settled n (purge st).
Proof.
  intros [R C]. split; [apply repair_reachable, R|]. intros p x z Hx Hz. apply purge_elem in Hx as (x0 & Hx & ->).
  destruct x0 as [l c s e cs] eqn:Ex. cbn [repair t_elem t_children] in *. destruct e as [z0|]; [|discriminate].
  destruct (C p x0 z0) as (i & el & -> & H1 & H2 & H3); [now rewrite Ex|now rewrite Ex|]. rewrite Nat2Z.id, H1 in Hz. rewrite Ex in H3. cbn in H3.
  destruct (alive el) eqn:Ea; [|discriminate]. injection Hz as <-. unfold alive in Ea. apply Z.eqb_eq in Ea.
  split; [rewrite H3; [reflexivity|rewrite Ea; discriminate]|]. exists (new_number st i), el. split; [reflexivity|]. split; [|exact H2].
  cbn [purge s_elems]. apply filter_nth; [exact H1|]. unfold alive. now rewrite Ea.
Qed.

Lemma purge_linked st : no_orphans st -> linked (purge st).
Proof.
  intros N j e p H1 H2. cbn [purge s_elems] in H1. apply filter_nth_inv in H1 as (i & K1 & K2 & ->).
  pose proof K2 as K3. unfold alive in K2. apply Z.eqb_eq in K2. destruct (N i e p K1 H2) as (x & Hx & Hz); [rewrite K2; discriminate|].
  exists (repair st x). split; [cbn [purge s_tree]; rewrite repair_subtree, Hx; reflexivity|]. destruct x as [l c s e0 cs]. cbn in Hz. subst e0.
  cbn [repair t_elem]. rewrite Nat2Z.id, K1, K3. reflexivity.
Qed.

Definition zero_or_two (st : state) : Prop := forall p i, lives st i p -> record_of st i = 0%Z.

Lemma purge_covered st : filled st -> zero_or_two st -> covered (purge st).
Proof.
  intros F Z p x [Hx Lx]. apply purge_elem in Hx as (x0 & Hx & ->). destruct x0 as [l c s e cs] eqn:Ex. cbn [repair t_children t_elem] in *.
  assert (Lf : leaf_at (s_tree st) p x0) by (split; [now rewrite Ex|rewrite Ex; cbn; now destruct cs]).
  destruct (F p x0 Lf) as [i Hi]. pose proof (Z p i Hi) as R0. destruct Hi as (y & el & Hy & Ey & Hn & _). rewrite Hx in Hy.
  injection Hy as <-. cbn in Ey. subst e. rewrite Nat2Z.id, Hn. rewrite (record_of_nth _ _ _ Hn) in R0.
  unfold alive. rewrite R0. discriminate.
Qed.

Lemma purge_surface st : no_surface st -> no_surface (purge st).
Proof.
  intros N p x Hx. apply purge_elem in Hx as (x0 & Hx & ->). specialize (N p x0 Hx). destruct x0. exact N.
Qed.

(** ** records after an update *)
Definition within (S0 : Z -> Prop) (st : state) : Prop := forall i e, nth_error (s_elems st) i = Some e -> S0 (e_record e).
Definition R4 (z : Z) : Prop := (z = -1 \/ z = 0 \/ z = 1 \/ z = 2)%Z.
Definition R3 (z : Z) : Prop := (z = 0 \/ z = 1 \/ z = 2)%Z.

Lemma within_finer n surf (S0 : Z -> Prop) a b : S0 0%Z -> S0 2%Z -> finer n surf a b -> within S0 a -> within S0 b.
Proof.
  intros H0 H2 F W i e H. destruct (Nat.lt_ge_cases i (length (s_elems a))) as [L|L].
  - destruct (nth_error (s_elems a) i) as [ea|] eqn:Ea; [|apply nth_error_None in Ea; lia].
    rewrite <- (record_of_nth _ _ _ H). destruct (f_rec _ _ _ _ F i L) as [E|[_ E]]; rewrite E; [|exact H2].
    rewrite (record_of_nth _ _ _ Ea). apply (W i ea Ea).
  - destruct (f_new _ _ _ _ F i e L H) as [E|E]; rewrite E; assumption.
Qed.
Lemma within_coarser n a b : coarser n a b -> within R4 a -> within R4 b.
Proof.
  intros F W i e H. destruct (Nat.lt_ge_cases i (length (s_elems a))) as [L|L].
  - destruct (nth_error (s_elems a) i) as [ea|] eqn:Ea; [|apply nth_error_None in Ea; lia].
    rewrite <- (record_of_nth _ _ _ H). destruct (c_rec _ _ _ F i L) as [E|[_ [E|E]]]; rewrite E; unfold R4; auto.
    rewrite (record_of_nth _ _ _ Ea). apply (W i ea Ea).
  - rewrite (c_new _ _ _ F i e L H). unfold R4. auto.
Qed.
Lemma within_reset a : within R4 a -> within R3 (reset_denied a).
Proof.
  intros W i e H. rewrite reset_nth in H. destruct (nth_error (s_elems a) i) as [ea|] eqn:Ea; [|discriminate]. cbn in H. injection H as <-.
  pose proof (W i ea Ea) as K. unfold R4, R3 in *. destruct (Z.eqb_spec (e_record ea) (-1)) as [E|E]; cbn; [now left|].
  destruct K as [K|K]; [contradiction|exact K].
Qed.

Lemma update_cycle n surf ref unref cons st fuel st' :
  settled n st -> covered st -> linked st -> no_surface st -> (forall q, surf q = false) ->
  update_mesh fuel n surf ref unref cons st = Ok st' ->
  settled n (purge st') /\ covered (purge st') /\ linked (purge st') /\ no_surface (purge st').
Proof.
  intros S0 Cv Lk Ns Sf. rewrite update_eq. set (sa := asked ref unref cons st).
  pose proof (asked_cons ref unref cons st n S0) as C. fold sa in C.
  pose proof (asked_whole ref unref cons st n S0 Lk) as Wa. fold sa in Wa.
  pose proof (asked_fil ref unref cons st n S0 Cv) as Fa. fold sa in Fa.
  pose proof (asked_surf ref unref cons st Ns) as Na. fold sa in Na.
  destruct (refine_both n surf sa C) as (s1 & E1 & F1 & St1 & D1). rewrite E1. cbn [bind].
  pose proof (refined_no1' n surf sa s1 C F1 St1 D1) as N1.
  pose proof (f_cons _ _ _ _ F1) as C1.
  destruct (unrefine_ok n (container sa) fuel s1 C1) as [K|(s2 & E2 & F2)]; [rewrite K; discriminate|].
  rewrite E2. cbn [bind].
  pose proof (coarser_no1 n s1 s2 C1 F2 N1) as N2.
  pose proof (reset_cons n s2 (c_cons _ _ _ F2)) as C3.
  assert (B4 : within R4 sa).
  { intros i e H. pose proof (asked_bounded ref unref cons st i e H). unfold R4. lia. }
  assert (B3 : within R3 (reset_denied s2)).
  { apply within_reset, (within_coarser n s1 s2 F2), (within_finer n surf R4 sa s1); try assumption; unfold R4; auto. }
  set (s3 := reset_denied s2) in *.
  assert (Ns3 : NoSurf s3).
  { intros q lf e s H. apply (c_surf _ _ _ F2 (f_surf _ _ _ _ F1 Sf Na) q lf e s H). }
  assert (Fs3 : Fil s3) by (apply reset_fil, (c_fil _ _ _ F2), (f_fil _ _ _ _ F1), Fa).
  assert (Ws3 : Whole s3) by (apply reset_whole, (c_whole _ _ _ F2), (f_whole _ _ _ _ F1), Wa).
  rewrite (unfill_nosurf _ s3 Ns3). destruct fuel as [|fuel]; [discriminate|].
  rewrite (flood_fil n surf fuel s3 C3 Fs3). cbn [bind]. intros E4.
  destruct (smooth_ok n surf (S fuel) s3 C3 (reset_no1 s2 N2)) as [K|(s4 & E4' & F4 & N4 & _)]; [congruence|].
  rewrite E4 in E4'. injection E4' as ->. pose proof (f_cons _ _ _ _ F4) as C4.
  split; [apply purge_settled; now apply consistent_Cons|]. split; [|split].
  - apply purge_covered; [apply (filled_Fil n s4 C4), (f_fil _ _ _ _ F4), Fs3|].
    intros p i Hi. apply (lives_at n s4 i p C4) in Hi as [Hi Hr]. specialize (N4 p i Hi).
    destruct (elem_at_cons n s4 p i C4 Hi) as (e & _ & _ & Ee & _). rewrite (record_of_nth _ _ _ Ee) in *.
    destruct (within_finer n surf R3 s3 s4 ltac:(unfold R3; auto) ltac:(unfold R3; auto) F4 B3 i e Ee) as [K|[K|K]]; [exact K|contradiction|contradiction].
  - apply purge_linked. apply (Whole_no_orphans n s4 C4), (f_whole _ _ _ _ F4), Ws3.
  - apply purge_surface. intros p x Hx. apply (f_surf _ _ _ _ F4 Sf Ns3 p (is_leaf x) (t_elem x)). unfold inf, info. now rewrite Hx.
Qed.

(** ** the mesh to start from *)
Lemma start_complete n : settled n (start_mesh n) /\ covered (start_mesh n) /\ linked (start_mesh n) /\ no_surface (start_mesh n).
Proof.
  unfold start_mesh. cbn [update set_elem_node new_tree].
  split; [split|split; [|split]].
  - exists [Set_elem [] (Some 0%Z)]. reflexivity.
  - intros p x z Hx Hz. cbn [s_tree] in Hx. destruct p as [|k p]; cbn in Hx.
    + injection Hx as <-. cbn in *. injection Hz as <-. split; [reflexivity|]. exists 0, (mk_elem (Some []) false 0%Z false). auto.
    + destruct k; discriminate.
  - intros p x [Hx _]. cbn [s_tree] in Hx. destruct p as [|k p]; cbn in Hx; [injection Hx as <-; cbn; discriminate|destruct k; discriminate].
  - intros i e p H1 H2. cbn [s_elems] in H1. destruct i as [|[|i]]; cbn in H1; try discriminate. injection H1 as <-. cbn in H2. injection H2 as <-.
    eexists. split; reflexivity.
  - intros p x Hx. cbn [s_tree] in Hx. destruct p as [|k p]; cbn in Hx; [injection Hx as <-; cbn; discriminate|destruct k; discriminate].
Qed.

(** ** more fuel does not change the result *)
Lemma unrefine_fuel n orig : forall k s s', unrefine_loop k n orig s = Ok s' -> forall k', k <= k' -> unrefine_loop k' n orig s = Ok s'.
Proof.
  induction k as [|k IH]; intros s s' H k' L; [discriminate|]. destruct k' as [|k']; [lia|]. cbn [unrefine_loop] in *.
  destruct (unrefine_sweep n orig s) as [[s1 ch]| | |]; cbn [bind] in *; try discriminate. destruct ch; [|exact H]. apply (IH s1 s' H). lia.
Qed.
Lemma flood_fuel n surf : forall k s s', flood_loop' k n surf s = Ok s' -> forall k', k <= k' -> flood_loop' k' n surf s = Ok s'.
Proof.
  induction k as [|k IH]; intros s s' H k' L; [discriminate|]. destruct k' as [|k']; [lia|]. cbn [flood_loop'] in *.
  destruct (flood_iter n surf s) as [[s1 ch]| | |]; cbn [bind] in *; try discriminate. destruct ch; [|exact H]. apply (IH s1 s' H). lia.
Qed.
Lemma smooth_fuel n surf : forall k s s', smooth_loop k n surf s = Ok s' -> forall k', k <= k' -> smooth_loop k' n surf s = Ok s'.
Proof.
  induction k as [|k IH]; intros s s' H k' L; [discriminate|]. destruct k' as [|k']; [lia|]. cbn [smooth_loop] in *.
  destruct (ofold (mark_one n) (container s false ++ container s true) (s, false)) as [[s1 ch]| | |]; cbn [bind] in *; try discriminate.
  destruct (refine_by_record n surf false s1) as [s2| | |]; cbn [bind] in *; try discriminate.
  destruct (refine_by_record n surf true s2) as [s3| | |]; cbn [bind] in *; try discriminate.
  destruct ch; [|exact H]. apply (IH s3 s' H). lia.
Qed.
Lemma update_fuel n surf ref unref cons st fuel st' : update_mesh fuel n surf ref unref cons st = Ok st' ->
  forall fuel', fuel <= fuel' -> update_mesh fuel' n surf ref unref cons st = Ok st'.
Proof.
  rewrite update_eq. intros H fuel' L. rewrite update_eq.
  destruct (let! s := refine_by_record n surf false (asked ref unref cons st) in refine_by_record n surf true s) as [s1| | |]; cbn [bind] in *; try discriminate.
  destruct (unrefine_loop fuel n (container (asked ref unref cons st)) s1) as [s2| | |] eqn:E2; cbn [bind] in *; try discriminate.
  rewrite (unrefine_fuel n _ fuel s1 s2 E2 fuel' L). cbn [bind].
  destruct (flood_loop' fuel n surf (unfill (length (s_elems (asked ref unref cons st))) (reset_denied s2))) as [s3| | |] eqn:E3; cbn [bind] in *; try discriminate.
  rewrite (flood_fuel n surf fuel _ s3 E3 fuel' L). cbn [bind]. apply (smooth_fuel n surf fuel s3 st' H fuel' L).
Qed.
