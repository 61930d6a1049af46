(** Theorems about shared vertices (properties C14, C40, C52, C53). *)
From Coq Require Import Reals Lra Lia.
From stdpp Require Import gmap option list numbers fin_maps fin_sets.
From Verif Require Import Vertex_Model Vertex_Spec Vertex_Proofs Vertex_Proofs2 Vertex_Proofs3 Vertex_Proofs4.
Local Open Scope R_scope.

Lemma refers_to_spec : forall h w p v, represents h w -> refers_to h p v <-> refers w !! p = Some v.
Proof.
  intros h w p v R. unfold refers_to. rewrite <- (rep_refers h w R), lookup_fmap. destruct (ht h !! p) as [t|]; cbn; split.
  - intros (t' & T & <-). congruence.
  - intros K. exists t. split; congruence.
  - intros (t' & T & _). discriminate.
  - discriminate.
Qed.
Lemma exists_refers_to : forall h w v, represents h w -> exists_v (refers w) v <-> exists p, refers_to h p v.
Proof. intros h w v R. unfold exists_v. split; intros (p & P); exists p; now apply (refers_to_spec h w p v R). Qed.

(** ** C14 *)
(** every history of operations whose handles exist runs without undefined behaviour, and ends in the specified state *)
Theorem vertex_history : forall os w, spec_run os empty_world = Some w -> exists h, run os empty_heap = Some h /\ represents h w.
Proof. intros os w S. destruct empty_rep as [R C]. destruct (run_rep os _ _ w R C S) as (h & E & R' & _). eauto. Qed.
Print Assumptions vertex_history.

(** an operation is defined exactly if the handles it is applied to exist *)
Theorem vertex_defined : forall h o, reachable h ->
  is_Some (step o h) <-> Forall (fun p => is_Some (ht h !! p)) (needs_t o) /\ Forall (fun n => is_Some (hn h !! n)) (needs_n o).
Proof.
  intros h o (os & E). destruct (reachable_rep h) as (w & R & C); [now exists os|]. split.
  - intros [h' S]. now apply (step_needs o h h').
  - intros [A B]. apply (step_spec o h w R C). apply spec_defined. split.
    + eapply Forall_impl; [exact A|]. intros p P. now apply (ht_refers h w p R).
    + rewrite <- (rep_watch h w R). exact B.
Qed.
Print Assumptions vertex_defined.

(** each handle refers to a vertex that exists; a vertex knows exactly the handles that refer to it, and has at least one;
    its mass is their number *)
Theorem vertex_handles : forall h, reachable h ->
  (forall p t, ht h !! p = Some t -> is_Some (hv h !! ptr t)) /\
  (forall v x, hv h !! v = Some x -> (forall p, p ∈ trbl_ptrs x <-> refers_to h p v) /\ (exists p, refers_to h p v) /\ mass v h = Some (size (filter (fun k => ptr k.2 = v) (ht h)))).
Proof.
  intros h E. destruct (reachable_rep h E) as (w & R & C). split.
  - intros p t T. apply (rep_live h w R). exists p. apply (refers_to_spec h w p _ R). now exists t.
  - intros v x X. split; [intros p; rewrite (refers_to_spec h w p v R); now apply (rep_trbl h w R)|]. split.
    + apply (exists_refers_to h w v R), (rep_live h w R). eauto.
    + unfold mass. rewrite X. cbn. f_equal. rewrite <- (size_dom (D := gset nat)). f_equal. apply leibniz_equiv. intros p. rewrite elem_of_dom, (rep_trbl h w R v x p X), <- (refers_to_spec h w p v R). split.
      * intros (t & T & V). exists t. now apply map_filter_lookup_Some.
      * intros [t T]. apply map_filter_lookup_Some in T. destruct T as [T V]. now exists t.
Qed.
Print Assumptions vertex_handles.

(** merging two vertices *)
Theorem vertex_merge : forall h p q a b x y, reachable h -> refers_to h p a -> refers_to h q b -> a <> b -> hv h !! a = Some x -> hv h !! b = Some y ->
  exists h' x', step (OEat p q) h = Some h' /\ hv h' !! b = None /\ hv h' !! a = Some x' /\
    (forall r u, refers_to h' r u <-> (u = a /\ refers_to h r b) \/ (u <> b /\ refers_to h r u)) /\
    (forall i, pos x' i = (INR (size (trbl_ptrs x)) * pos x i + INR (size (trbl_ptrs y)) * pos y i) / (INR (size (trbl_ptrs x)) + INR (size (trbl_ptrs y)))) /\
    size (trbl_ptrs x') = (size (trbl_ptrs x) + size (trbl_ptrs y))%nat /\
    neighbors x' = (neighbors x ∪ neighbors y) ∖ {[a; b]} /\
    (forall u z z', u <> a -> u <> b -> hv h !! u = Some z -> hv h' !! u = Some z' -> forall i, pos z' i = pos z i).
Proof.
  intros h p q a b x y E P Q D X Y. destruct (reachable_rep h E) as (w & R & C). rewrite (refers_to_spec h w p a R) in P. rewrite (refers_to_spec h w q b R) in Q.
  destruct (step_rep (OEat p q) h w (merge a b w) R C) as (h' & E' & R' & C'). { cbn [spec_step]. rewrite P. cbn [mbind option_bind]. now rewrite Q. }
  assert (M : merge a b w = merge a b w) by reflexivity. unfold merge in M at 2. rewrite decide_False in M by exact D. fold (relabel b a (refers w)) in M. rewrite M in R', C'. clear M.
  assert (RT : forall r u, refers_to h' r u <-> (u = a /\ refers_to h r b) \/ (u <> b /\ refers_to h r u)).
  { intros r u. rewrite (refers_to_spec h' _ r u R'), !(refers_to_spec h w r _ R). cbn. unfold relabel. rewrite lookup_fmap. destruct (refers w !! r) as [v|]; cbn.
    - destruct (decide (v = b)) as [->|DV]; split.
      + intros K. injection K as <-. auto.
      + intros [[-> _]|[N K]]; congruence.
      + intros K. injection K as <-. right. split; congruence.
      + intros [[-> K]|[N K]]; congruence.
    - split; [discriminate|intros [[_ K]|[_ K]]; discriminate]. }
  assert (EA : exists_v (relabel b a (refers w)) a). { exists p. unfold relabel. rewrite lookup_fmap, P. cbn. now rewrite decide_False by congruence. }
  assert (EB : ~ exists_v (relabel b a (refers w)) b). { intros (r & K). unfold relabel in K. rewrite lookup_fmap in K. destruct (refers w !! r) as [v|]; [|discriminate]. cbn in K. destruct (decide (v = b)); congruence. }
  destruct (live h' _ a R' EA) as [x' X']. exists h', x'. split; [exact E'|]. split.
  { destruct (hv h' !! b) as [z|] eqn:Z; [|reflexivity]. exfalso. apply EB. apply (rep_live h' _ R'). eauto. }
  split; [exact X'|]. split; [exact RT|]. split; [|split; [|split]].
  - intros i. rewrite (rep_pos h' _ R' a x' X'). cbn. rewrite decide_True by reflexivity. rewrite <- (count_size h w R a x X), <- (count_size h w R b y Y), (rep_pos h w R a x X), (rep_pos h w R b y Y). reflexivity.
  - rewrite <- (count_size h w R a x X), <- (count_size h w R b y Y), <- (count_size h' _ R' a x' X'). cbn. apply INR_eq. rewrite plus_INR, !tally_count, tally_relabel by exact D. now rewrite decide_True.
  - apply leibniz_equiv. intros u. rewrite (rep_nbs h' _ R' a x' u X'). cbn. rewrite elem_of_difference, !elem_of_union, !elem_of_singleton, (rep_nbs h w R a x u X), (rep_nbs h w R b y u Y). split.
    + intros ([K|[K|K]] & _ & U).
      * apply (coh_linked w C) in K. destruct K as (K1 & K2 & K3). split; [left; now apply (coh_linked w C) in K1|]. intros [K|K]; congruence.
      * destruct K as (_ & K & N). split; [now right|]. intros [->| ->]; [congruence|]. apply (coh_linked w C) in K. tauto.
      * destruct K as (-> & K & N). congruence.
    + intros [[K|K] N].
      * pose proof (coh_linked w C a u K) as (_ & _ & _ & U). split; [now left|]. split; [exact EA|]. destruct U as (r & U). exists r. unfold relabel. rewrite lookup_fmap, U. cbn. rewrite decide_False by tauto. reflexivity.
      * pose proof (coh_linked w C b u K) as (_ & _ & _ & U). split; [right; left; tauto|]. split; [exact EA|]. destruct U as (r & U). exists r. unfold relabel. rewrite lookup_fmap, U. cbn. rewrite decide_False by tauto. reflexivity.
  - intros u z z' NA NB Z Z' i. rewrite (rep_pos h' _ R' u z' Z'), (rep_pos h w R u z Z). cbn. now rewrite decide_False.
Qed.
Print Assumptions vertex_merge.

(** two handles that refer to the same vertex do so forever after, unless one of them is destroyed or reassigned *)
Theorem vertex_merged_forever : forall h os h' p q v, reachable h -> refers_to h p v -> refers_to h q v ->
  Forall (fun o => ~ reassigns p o /\ ~ reassigns q o) os -> run os h = Some h' -> exists u, refers_to h' p u /\ refers_to h' q u.
Proof.
  intros h os h' p q v E P Q F S. destruct (reachable_rep h E) as (w & R & C). destruct (run_spec os h w h' R C S) as (w' & S' & R' & C').
  rewrite (refers_to_spec h w p _ R) in P. rewrite (refers_to_spec h w q _ R) in Q. destruct (together_run os p q h w w' v F R C S' P Q) as (u & U & U'). exists u. now rewrite !(refers_to_spec h' w' _ _ R').
Qed.
Print Assumptions vertex_merged_forever.

(** after any history of creations and merges, a vertex is at the mean of the positions its handles were created at *)
Theorem vertex_mean : forall os h v x i l, Forall only_merges os -> run os empty_heap = Some h -> hv h !! v = Some x ->
  NoDup l -> (forall p, p ∈ l <-> refers_to h p v) -> pos x i = mean ((fun p => births 0 os p i) <$> l).
Proof.
  intros os h v x i l O E X ND L. destruct empty_rep as [R C]. destruct (run_spec os _ _ h R C E) as (w & S & R' & C').
  assert (B : balanced (births 0 os) w). { apply (balanced_run os (births 0 os) empty_world w O C S); [reflexivity|]. intros u j (p & P). cbn in P. rewrite lookup_empty in P. discriminate. }
  assert (EV : exists_v (refers w) v) by (apply (rep_live h w R'); eauto). specialize (B v i EV). pose proof (count_pos _ _ EV) as CP. rewrite (rep_pos h w R' v x X).
  assert (L' : forall p, p ∈ l <-> refers w !! p = Some v) by (intros p; rewrite L; now apply refers_to_spec).
  rewrite (tally_list _ v l (refers w) ND L') in B. unfold mean. rewrite fmap_length.
  assert (K : INR (length l) = INR (count (refers w) v)). { rewrite tally_count, (tally_list _ v l (refers w) ND L'). clear. induction l as [|p l IH]; [reflexivity|]. cbn [length fmap list_fmap foldr]. rewrite S_INR, IH. lra. }
  rewrite K. rewrite <- B. field. lra.
Qed.
Print Assumptions vertex_mean.

Definition at_x (a : R) : point := fun i => match i with 0%nat => a | _ => 0 end.
(** three vertices merged two at a time in both directions; handle 3 is a copy *)
Definition sample : list op := [ONew (at_x 0) true; ONew (at_x 3) true; ONew (at_x 9) false; NNew 1; OConnect 0 2; OEat 1 0; OCopy 0; OEat 1 2].
Example vertex_sample : (fun h => (map_to_list (ptr <$> ht h), map_to_list (hn h), (fun k => elements (neighbors k.2)) <$> map_to_list (hv h))) <$> run sample empty_heap
  = Some ([(0, 1); (1, 1); (2, 1); (4, 1)]%nat, [(3, Some 1)]%nat, [[]]).
Proof. vm_compute. reflexivity. Qed.
Definition sample2 : list op := [ONew (at_x 0) true; ONew (at_x 3) true; ONew (at_x 9) false; OEat 1 0; OEat 2 1].
Example vertex_sample_mean : exists h x, run sample2 empty_heap = Some h /\ hv h !! 2%nat = Some x /\ pos x 0%nat = 4.
Proof.
  assert (K : (fun h => map_to_list (ptr <$> ht h)) <$> run sample2 empty_heap = Some [(0, 2); (1, 2); (2, 2)]%nat) by (vm_compute; reflexivity).
  destruct (run sample2 empty_heap) as [h|] eqn:E; [|discriminate]. cbn in K. injection K as P.
  assert (RT : forall p, p ∈ [0; 1; 2]%nat <-> refers_to h p 2%nat).
  { intros p. unfold refers_to. transitivity ((p, 2%nat) ∈ map_to_list (ptr <$> ht h)).
    - rewrite P, !elem_of_cons, !elem_of_nil. split; [intros [->|[->|[->|[]]]]; auto|]. intros [K|[K|[K|[]]]]; injection K; auto.
    - rewrite elem_of_map_to_list, lookup_fmap. destruct (ht h !! p) as [t|]; cbn; split; [intros K; exists t; split; congruence|intros (t' & T & <-); congruence|discriminate|intros (t' & T & _); discriminate]. }
  assert (RE : reachable h) by (now exists sample2). destruct (vertex_handles h RE) as [LV _]. assert (K : refers_to h 2%nat 2%nat) by (apply RT; rewrite !elem_of_cons; auto). destruct K as (t & T & V).
  destruct (LV 2%nat t T) as [x X]. rewrite V in X. exists h, x. split; [reflexivity|]. split; [exact X|].
  rewrite (vertex_mean sample2 h 2%nat x 0%nat [0; 1; 2]%nat); [|repeat constructor|exact E|exact X|apply (bool_decide_unpack (NoDup [0; 1; 2]%nat)); reflexivity|exact RT].
  unfold mean. cbn [fmap list_fmap foldr length Datatypes.length]. change (births 0%nat sample2 0%nat 0%nat) with 0. change (births 0%nat sample2 1%nat 0%nat) with 3. change (births 0%nat sample2 2%nat 0%nat) with 9. replace (INR 3) with 3 by (cbn; lra). lra.
Qed.

(** ** C52: references that do not keep a vertex alive, and edges *)
Theorem vertex_weak : forall h, reachable h ->
  (forall n v, hn h !! n = Some (Some v) -> is_Some (hv h !! v)) /\
  (forall o h' n v, step o h = Some h' -> ~ resets n o -> hn h !! n = Some (Some v) -> hn h' !! n = Some (match hv h' !! v with Some _ => Some v | None => None end)) /\
  (forall v x u, hv h !! v = Some x -> u ∈ neighbors x -> u <> v /\ exists y, hv h !! u = Some y /\ v ∈ neighbors y).
Proof.
  intros h E. destruct (reachable_rep h E) as (w & R & C). split; [|split].
  - intros n v N. apply (rep_live h w R). apply (coh_watch w C n). now rewrite <- (rep_watch h w R).
  - intros o h' n v S NR N. destruct (proj1 (step_spec o h w R C)) as [w' W]; [eauto|]. destruct (step_rep o h w w' R C W) as (h1 & E1 & R1 & C1). assert (h1 = h') by congruence. subst h1.
    rewrite (rep_watch h w R) in N. rewrite (rep_watch h' w' R1), (watch_step o n w w' v C NR W N). f_equal. destruct (decide (exists_v (refers w') v)) as [D|D].
    + apply (rep_live h' w' R1) in D. destruct D as [x X]. now rewrite X.
    + destruct (hv h' !! v) as [x|] eqn:X; [|reflexivity]. exfalso. apply D. apply (rep_live h' w' R1). eauto.
  - intros v x u X U. apply (rep_nbs h w R v x u X) in U. apply (coh_linked w C) in U. destruct U as (L & N & _ & EU). split; [congruence|]. destruct (live h w u R EU) as [y Y]. exists y. split; [exact Y|]. now apply (rep_nbs h w R u y v Y).
Qed.
Print Assumptions vertex_weak.
(** a reference to a vertex that is merged into another one is reset, and so is one that is assigned to itself *)
Example vertex_weak_example : (fun h => map_to_list (hn h)) <$> run [ONew (at_x 0) true; ONew (at_x 1) true; NNew 0; NNew 1; NCopy 3; OEat 0 1; NAssign 2 2] empty_heap = Some [(3, None); (2, None); (4, None)]%nat.
Proof. vm_compute. reflexivity. Qed.

(** ** C53: questions about a vertex are answered by all of its handles *)
Theorem vertex_votes : forall h v, reachable h -> is_Some (hv h !! v) ->
  (exists b, is_mobile v h = Some b /\ (b = true <-> forall p t, ht h !! p = Some t -> ptr t = v -> mobile t = true)) /\
  (exists b, needs_smooth v h = Some b /\ (b = true <-> exists p t, ht h !! p = Some t /\ ptr t = v /\ needs_smooth_ t = true)).
Proof.
  intros h v E V. destruct (reachable_rep h E) as (w & R & C). apply (rep_live h w R) in V.
  assert (K : forall p t, ht h !! p = Some t -> refers w !! p = Some v <-> ptr t = v).
  { intros p t T. rewrite <- (refers_to_spec h w p v R). unfold refers_to. split; [intros (t' & T' & <-); congruence|intros <-; now exists t]. }
  split.
  - destruct (mobile_rep h w v R V) as (b & B & I). exists b. split; [exact B|]. rewrite I. split; intros H p t T P; apply (H p t T); now apply (K p t T).
  - destruct (smooth_rep h w v R V) as (b & B & I). exists b. split; [exact B|]. rewrite I. split; intros (p & t & T & P & N); exists p, t; (split; [exact T|]); (split; [now apply (K p t T)|exact N]).
Qed.
Print Assumptions vertex_votes.
(** the vertex of [sample] has an immobile handle *)
Example vertex_votes_example : (h ← run sample empty_heap; is_mobile 1 h) = Some false /\ (h ← run (take 6 sample) empty_heap; is_mobile 1 h) = Some true /\
  (h ← run (sample ++ [OSmooth 0 false; OSmooth 1 false; OSmooth 2 false]) empty_heap; needs_smooth 1 h) = Some true.
Proof. repeat split; vm_compute; reflexivity. Qed.

(** ** C40 *)
Theorem vertex_sharing : forall os w h els get order0 order1 d, spec_run os empty_world = Some w -> run os empty_heap = Some h -> owns_handles els w ->
  (forall k, k ∈ order0 <-> exists p, place els k p) -> (forall k, k ∈ order1 <-> exists p, place els k p) ->
  (exists h' d', share_vertex_data els get vector_max order0 order1 h d = Some (h', d') /\
    forall e i v, touches els w e i v -> exists m, d' !! (e, i) = Some m /\ greatest m (fun a => exists e' i', touches els w e' i' v /\ a = get e' i')) /\
  (exists h' d', share_vertex_data els get vector_min order0 order1 h d = Some (h', d') /\
    forall e i v, touches els w e i v -> exists m, d' !! (e, i) = Some m /\ least m (fun a => exists e' i', touches els w e' i' v /\ a = get e' i')).
Proof.
  intros os w h els get order0 order1 d S E O O0 O1. destruct empty_rep as [R0 C0]. destruct (run_rep os _ _ w R0 C0 S) as (h1 & E1 & R & C). assert (h1 = h) by congruence. subst h1. split.
  - destruct (share_rep els get vector_max order0 order1 h w d R C O O0 O1) as (h' & d' & SH & _ & V). exists h', d'. split; [exact SH|]. intros e i v T. destruct (V (e, i) v T) as (l & D & NE & I).
    exists (vector_max l). split; [exact D|]. destruct (vector_max_greatest l NE) as [A B]. split; [now apply I|]. intros a K. apply B. now apply I.
  - destruct (share_rep els get vector_min order0 order1 h w d R C O O0 O1) as (h' & d' & SH & _ & V). exists h', d'. split; [exact SH|]. intros e i v T. destruct (V (e, i) v T) as (l & D & NE & I).
    exists (vector_min l). split; [exact D|]. destruct (vector_min_least l NE) as [A B]. split; [now apply I|]. intros a K. apply B. now apply I.
Qed.
Print Assumptions vertex_sharing.
(** two elements in one dimension; vertex 1 of the first is vertex 0 of the second *)
Definition pair_ops : list op := [ONew (at_x 0) true; ONew (at_x 1) true; ONew (at_x 1) true; ONew (at_x 2) true; OEat 1 2].
Definition pair_mesh : mesh := [[0; 1]; [2; 3]]%nat.
Definition pair_get (e i : nat) : R := match e, i with 0%nat, 1%nat => 5 | 1%nat, 0%nat => 7 | _, _ => 1 end.
Example vertex_sharing_example :
  (h ← run pair_ops empty_heap; r ← share_vertex_data pair_mesh pair_get vector_max [(1, 0); (0, 1); (1, 1); (0, 0)]%nat [(0, 0); (0, 1); (1, 0); (1, 1)]%nat h ∅; Some (map_to_list (snd r)))
  = Some [((1, 1)%nat, 1); ((1, 0)%nat, Rmax 5 7); ((0, 0)%nat, 1); ((0, 1)%nat, Rmax 5 7)].
Proof. vm_compute. reflexivity. Qed.
Example vertex_sharing_hypothesis : exists w, spec_run pair_ops empty_world = Some w /\ owns_handles pair_mesh w.
Proof.
  assert (K : (fun w => map_to_list (refers w)) <$> spec_run pair_ops empty_world = Some [(0, 0); (1, 1); (3, 3); (2, 1)]%nat) by (vm_compute; reflexivity).
  destruct (spec_run pair_ops empty_world) as [w|] eqn:E; [|discriminate]. cbn in K. injection K as P. exists w. split; [reflexivity|].
  assert (L : forall p, is_Some (refers w !! p) <-> (p < 4)%nat).
  { intros p. split.
    - intros [v V]. apply elem_of_map_to_list in V. rewrite P, !elem_of_cons, elem_of_nil in V. destruct V as [V|[V|[V|[V|[]]]]]; injection V as -> ->; lia.
    - intros B. assert (K : exists v, (p, v) ∈ map_to_list (refers w)).
      { rewrite P. destruct p as [|[|[|[|p]]]]; [exists 0%nat|exists 1%nat|exists 1%nat|exists 3%nat|lia]; rewrite !elem_of_cons; auto. }
      destruct K as [v V]. apply elem_of_map_to_list in V. eauto. }
  assert (PL : forall k p, place pair_mesh k p -> (k.1 < 2 /\ k.2 < 2)%nat /\ p = (2 * k.1 + k.2)%nat).
  { intros [e i] p (l & A & B). cbn in *. destruct e as [|[|e]]; cbn in A; try discriminate; injection A as <-; destruct i as [|[|i]]; cbn in B; try discriminate; injection B as <-; lia. }
  constructor.
  - intros k p K. apply PL in K. apply L. lia.
  - intros [e i] [e' i'] p K K'. apply PL in K. apply PL in K'. cbn in *. f_equal; lia.
  - intros p K. apply L in K. exists (p / 2, p mod 2)%nat. destruct p as [|[|[|[|p]]]]; [| | | |lia]; eexists; (split; reflexivity).
Qed.
