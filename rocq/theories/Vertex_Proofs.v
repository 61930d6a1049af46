(** Proofs about shared vertices. *)
From Coq Require Import Reals Lra Lia.
From stdpp Require Import gmap option list numbers fin_maps fin_sets.
From Verif Require Import Vertex_Model Vertex_Spec.

Lemma begin_some : forall s, s <> ∅ -> exists a, begin s = Some a /\ a ∈ s.
Proof.
  intros s N. unfold begin. destruct (elements s) as [|a l] eqn:E.
  - exfalso. apply N. apply elements_empty_inv in E. now apply leibniz_equiv.
  - exists a. split; [reflexivity|]. apply elem_of_elements. rewrite E. left.
Qed.
Lemma size_minus1 : forall (s : gset nat) a k, a ∈ s -> size s = S k -> size (s ∖ {[a]}) = k.
Proof. intros s a k A E. rewrite size_difference, size_singleton by set_solver. lia. Qed.

(** ** Destruction of a vertex *)
Lemma nullify_all : forall v k h x, hv h !! v = Some x -> size (nont_ptrs x) = k -> (forall n, n ∈ nont_ptrs x -> hn h !! n = Some (Some v)) ->
  exists h', Nat.iter k (nullify_first v) (Some h) = Some h' /\ hv h' = <[v := set_nont x ∅]> (hv h) /\ ht h' = ht h /\ next h' = next h /\
             forall n, hn h' !! n = if decide (n ∈ nont_ptrs x) then Some None else hn h !! n.
Proof.
  intros v. induction k as [|k IH]; intros h x V K N.
  - exists h. cbn. apply size_empty_inv in K. assert (E : nont_ptrs x = ∅) by (now apply leibniz_equiv). split; [reflexivity|]. split.
    + rewrite insert_id; [reflexivity|]. rewrite V. f_equal. destruct x. cbn in *. now rewrite E.
    + split; [reflexivity|]. split; [reflexivity|]. intros n. rewrite decide_False by set_solver. reflexivity.
  - rewrite Nat.iter_succ_r. destruct (begin_some (nont_ptrs x)) as (a & B & A); [intros E; rewrite E, size_empty in K; discriminate|].
    unfold nullify_first at 2. cbn. rewrite V. cbn. rewrite B. cbn. unfold nullify. rewrite (N a A). cbn. rewrite V. cbn.
    set (x' := set_nont x (nont_ptrs x ∖ {[a]})).
    destruct (IH (set_hn (put h v x') (<[a := None]> (hn h))) x') as (h' & E & HV & HT & NX & HN).
    + cbn. apply lookup_insert.
    + now apply size_minus1.
    + cbn. intros n I. rewrite lookup_insert_ne by set_solver. apply N. set_solver.
    + exists h'. split; [exact E|]. split; [|split; [exact HT|split; [exact NX|]]].
      * rewrite HV. cbn. now rewrite insert_insert.
      * intros n. rewrite HN. cbn. destruct (decide (n = a)) as [->|D].
        -- rewrite (decide_True (P := a ∈ nont_ptrs x)) by exact A. rewrite decide_False by set_solver. apply lookup_insert.
        -- rewrite lookup_insert_ne by congruence. destruct (decide (n ∈ nont_ptrs x)) as [I|I]; [rewrite decide_True by set_solver|rewrite decide_False by set_solver]; reflexivity.
Qed.

Lemma forget_all : forall v l h, NoDup l -> (forall u, u ∈ l -> is_Some (hv h !! u)) ->
  exists h', foldl (forget v) (Some h) l = Some h' /\ ht h' = ht h /\ hn h' = hn h /\ next h' = next h /\
             forall u, hv h' !! u = if decide (u ∈ l) then (fun y => set_nbs y (neighbors y ∖ {[v]})) <$> (hv h !! u) else hv h !! u.
Proof.
  intros v. induction l as [|a l IH]; intros h ND L.
  - exists h. repeat split. 
  - inversion ND as [|? ? NI ND']; subst. destruct (L a) as [y Y]; [left|]. cbn [foldl]. unfold forget at 2. cbn. rewrite Y. cbn.
    destruct (IH (put h a (set_nbs y (neighbors y ∖ {[v]})))) as (h' & E & HT & HN & NX & HV); [exact ND'| |].
    + intros u U. cbn. destruct (decide (u = a)) as [->|D]; [rewrite lookup_insert; eauto|rewrite lookup_insert_ne by congruence; apply L; now right].
    + exists h'. repeat (split; [assumption|]). intros u. rewrite HV. cbn. destruct (decide (u = a)) as [->|D].
      * rewrite decide_False by exact NI. rewrite (decide_True (P := a ∈ a :: l)) by left. now rewrite lookup_insert, Y.
      * rewrite lookup_insert_ne by congruence. destruct (decide (u ∈ l)) as [I|I].
        -- rewrite decide_True by (now right). reflexivity.
        -- rewrite decide_False by (intros J; apply elem_of_cons in J; tauto). reflexivity.
Qed.

Lemma destroy_eq : forall v h x, hv h !! v = Some x -> (forall n, n ∈ nont_ptrs x <-> hn h !! n = Some (Some v)) ->
  v ∉ neighbors x -> (forall u, u ∈ neighbors x -> is_Some (hv h !! u)) ->
  exists h', destroy_vertex v h = Some h' /\ ht h' = ht h /\ next h' = next h /\
    hn h' = (fun t => if decide (t = Some v) then None else t) <$> hn h /\
    forall u, hv h' !! u = if decide (u = v) then None else if decide (u ∈ neighbors x) then (fun y => set_nbs y (neighbors y ∖ {[v]})) <$> (hv h !! u) else hv h !! u.
Proof.
  intros v h x V N NV L. unfold destroy_vertex. rewrite V. cbn.
  destruct (nullify_all v _ h x V eq_refl) as (h1 & E1 & HV1 & HT1 & NX1 & HN1); [intros n I; now apply N|].
  rewrite E1. cbn. rewrite HV1, lookup_insert. cbn.
  destruct (forget_all v (elements (neighbors x)) h1) as (h2 & E2 & HT2 & HN2 & NX2 & HV2).
  - apply NoDup_elements.
  - intros u U. apply elem_of_elements in U. rewrite HV1. rewrite lookup_insert_ne by set_solver. now apply L.
  - rewrite E2. cbn. eexists. split; [reflexivity|]. cbn. split; [congruence|]. split; [congruence|]. split.
    + apply map_eq. intros n. rewrite HN2, HN1, lookup_fmap. destruct (decide (n ∈ nont_ptrs x)) as [I|I].
      * apply N in I. rewrite I. cbn. rewrite decide_True by reflexivity. reflexivity.
      * destruct (hn h !! n) as [t|] eqn:T; [|reflexivity]. cbn. rewrite decide_False; [reflexivity|]. intros ->. apply I. now apply N.
    + intros u. destruct (decide (u = v)) as [->|D]; [apply lookup_delete|]. rewrite lookup_delete_ne by congruence. rewrite HV2, HV1.
      rewrite lookup_insert_ne by congruence.
      destruct (decide (u ∈ neighbors x)) as [I|I].
      * rewrite decide_True by (now apply elem_of_elements). reflexivity.
      * rewrite decide_False by (intros J; apply elem_of_elements in J; contradiction). reflexivity.
Qed.

Lemma release_eq : forall v h x, hv h !! v = Some x -> (forall n, n ∈ nont_ptrs x <-> hn h !! n = Some (Some v)) ->
  v ∉ neighbors x -> (forall u, u ∈ neighbors x -> is_Some (hv h !! u)) ->
  exists h', release v h = Some h' /\ ht h' = ht h /\ next h' = next h /\
    if decide (uses x - 1 = 0)%nat
    then hn h' = (fun t => if decide (t = Some v) then None else t) <$> hn h /\
         forall u, hv h' !! u = if decide (u = v) then None else if decide (u ∈ neighbors x) then (fun y => set_nbs y (neighbors y ∖ {[v]})) <$> (hv h !! u) else hv h !! u
    else hn h' = hn h /\ hv h' = <[v := set_uses x (uses x - 1)]> (hv h).
Proof.
  intros v h x V N NV L. unfold release. rewrite V. cbn. destruct (decide (uses x - 1 = 0)%nat) as [Z|Z].
  - destruct (destroy_eq v (put h v (set_uses x (uses x - 1))) (set_uses x (uses x - 1))) as (h' & E & HT & NX & HN & HV).
    + cbn. apply lookup_insert.
    + exact N.
    + exact NV.
    + cbn. intros u U. rewrite lookup_insert_ne by set_solver. now apply L.
    + exists h'. split; [exact E|]. split; [exact HT|]. split; [exact NX|]. split; [exact HN|]. intros u. rewrite HV. cbn.
      destruct (decide (u = v)) as [->|D]; [reflexivity|]. now rewrite lookup_insert_ne by congruence.
  - eexists. split; [reflexivity|]. repeat split.
Qed.

(** what happens to the world when handle [p], which referred to [v], refers to something else or nothing from now on *)
Lemma exists_drop : forall (T T' : gmap nat nat) p v x (E : forall q, q <> p -> T' !! q = T !! q) (P : T' !! p <> Some v)
  (S : forall q, q ∈ x <-> T !! q = Some v) (PV : T !! p = Some v), exists_v T' v <-> (x : gset nat) ∖ {[p]} <> ∅.
Proof.
  intros T T' p v x E P S PV. split.
  - intros (q & Q) Z. assert (q <> p) by (intros ->; contradiction). rewrite E in Q by assumption. apply S in Q. set_solver.
  - intros N. apply set_choose_L in N. destruct N as (q & Q). exists q. rewrite E by set_solver. apply S. set_solver.
Qed.
Lemma exists_other : forall (T T' : gmap nat nat) p v u (E : forall q, q <> p -> T' !! q = T !! q) (PV : T !! p = Some v) (N : u <> v),
  exists_v T' u <-> exists_v T u \/ T' !! p = Some u.
Proof.
  intros T T' p v u E PV N. split.
  - intros (q & Q). destruct (decide (q = p)) as [->|D]; [now right|]. left. exists q. now rewrite <- E.
  - intros [(q & Q)|Q]; [|now exists p]. exists q. rewrite E; [exact Q|]. intros ->. congruence.
Qed.
Lemma size_zero : forall (s : gset nat), size s = 0%nat <-> s = ∅.
Proof. intros s. split; [intros E; apply size_empty_inv in E; now apply leibniz_equiv|intros ->; apply size_empty]. Qed.

Section Drop.
Context (h : heap) (w : world) (REP : represents h w) (COH : coherent w).

Lemma rep_vert : forall p v, refers w !! p = Some v -> exists x, hv h !! v = Some x /\ p ∈ trbl_ptrs x.
Proof.
  intros p v P. destruct (proj2 (rep_live h w REP v)) as [x X]; [now exists p|]. exists x. split; [exact X|]. now apply (rep_trbl h w REP v x p X).
Qed.
Lemma rep_tptr : forall p v, refers w !! p = Some v -> exists t, ht h !! p = Some t /\ ptr t = v.
Proof.
  intros p v P. rewrite <- (rep_refers h w REP), lookup_fmap in P. destruct (ht h !! p) as [t|]; [|discriminate]. cbn in P. exists t. split; [reflexivity|congruence].
Qed.
Lemma rep_nb_live : forall v x, hv h !! v = Some x -> v ∉ neighbors x /\ forall u, u ∈ neighbors x -> is_Some (hv h !! u).
Proof.
  intros v x X. split.
  - intros I. apply (rep_nbs h w REP v x v X) in I. apply (coh_linked w COH) in I. tauto.
  - intros u I. apply (rep_nbs h w REP v x u X) in I. apply (coh_linked w COH) in I. apply (rep_live h w REP). tauto.
Qed.
Lemma count_size : forall v x, hv h !! v = Some x -> count (refers w) v = size (trbl_ptrs x).
Proof.
  intros v x X. unfold count. rewrite <- (size_dom (D := gset nat)). f_equal. apply leibniz_equiv. intros p. rewrite elem_of_dom, (rep_trbl h w REP v x p X). split.
  - intros [u U]. apply map_filter_lookup_Some in U. destruct U as [U U']. cbn in U'. now subst.
  - intros U. exists v. apply map_filter_lookup_Some. now split.
Qed.

(** the common effect of [t_destroy] and [t_assign]: [h'] differs from [h] as follows *)
Lemma dropped : forall p v x T' h', refers w !! p = Some v -> hv h !! v = Some x -> (forall q, q <> p -> T' !! q = refers w !! q) -> T' !! p <> Some v ->
  (forall u, T' !! p = Some u -> exists_v (refers w) u) ->
  ptr <$> ht h' = T' -> next h' = next h ->
  (if decide (uses x - 1 = 0)%nat
    then hn h' = (fun t => if decide (t = Some v) then None else t) <$> hn h /\ hv h' !! v = None
    else hn h' = hn h /\ exists x', hv h' !! v = Some x' /\ trbl_ptrs x' = trbl_ptrs x ∖ {[p]} /\ uses x' = (uses x - 1)%nat /\ pos x' = pos x /\ nont_ptrs x' = nont_ptrs x /\ neighbors x' = neighbors x) ->
  (forall u, u <> v -> hv h !! u = None -> hv h' !! u = None) ->
  (forall u y, u <> v -> hv h !! u = Some y -> exists y', hv h' !! u = Some y' /\ pos y' = pos y /\ nont_ptrs y' = nont_ptrs y /\
     neighbors y' = (if decide (uses x - 1 = 0)%nat then neighbors y ∖ {[v]} else neighbors y) /\
     if decide (T' !! p = Some u) then trbl_ptrs y' = {[p]} ∪ trbl_ptrs y /\ uses y' = S (uses y) else trbl_ptrs y' = trbl_ptrs y /\ uses y' = uses y) ->
  represents h' (prune (set_refers w T')) /\ coherent (prune (set_refers w T')).
Proof.
  intros p v x T' h' PV X ET NT LT HT NX HV HN0 HO.
  assert (PX : p ∈ trbl_ptrs x) by (now apply (rep_trbl h w REP v x p X)).
  assert (SX : uses x = size (trbl_ptrs x)) by (now apply (rep_mass h w REP v)).
  assert (SP : size (trbl_ptrs x ∖ {[p]}) = (uses x - 1)%nat) by (rewrite size_difference, size_singleton by set_solver; lia).
  assert (EX : exists_v T' v <-> (uses x - 1 <> 0)%nat).
  { rewrite (exists_drop (refers w) T' p v (trbl_ptrs x) ET NT (fun q => rep_trbl h w REP v x q X) PV). rewrite <- SP. pose proof (size_zero (trbl_ptrs x ∖ {[p]})). tauto. }
  assert (EO : forall u, u <> v -> exists_v T' u <-> exists_v (refers w) u).
  { intros u U. rewrite (exists_other (refers w) T' p v u ET PV U). split; [intros [K|K]; [exact K|now apply LT]|tauto]. }
  assert (LK : forall u u', linked w u u' -> u <> u') by (intros u u' L; apply (coh_linked w COH) in L; tauto).
  assert (CW : forall n t, watch w !! n = Some (Some t) -> exists_v (refers w) t) by apply (coh_watch w COH).
  assert (WE : (λ t : option nat, match t with Some u => if decide (exists_v T' u) then Some u else None | None => None end) <$> watch w = hn h').
  { apply map_eq. intros n. rewrite lookup_fmap. rewrite (rep_watch h w REP) in HV. destruct (decide (uses x - 1 = 0)%nat) as [Z|Z].
    - destruct HV as [-> _]. rewrite lookup_fmap. destruct (watch w !! n) as [[u|]|] eqn:W; cbn; [|reflexivity|reflexivity].
      destruct (decide (u = v)) as [->|D].
      + rewrite decide_False by tauto. now rewrite decide_True by reflexivity.
      + rewrite decide_True by (apply EO; [exact D|now apply (CW n)]). rewrite decide_False by congruence. reflexivity.
    - destruct HV as [-> _]. destruct (watch w !! n) as [[u|]|] eqn:W; cbn; [|reflexivity|reflexivity]. rewrite decide_True; [reflexivity|].
      destruct (decide (u = v)) as [->|D]; [now apply EX|apply EO; [exact D|now apply (CW n)]]. }
  assert (PW : forall n u, (watch (prune (set_refers w T')) !! n = Some (Some u)) <-> watch w !! n = Some (Some u) /\ exists_v T' u).
  { intros n u. cbn. rewrite lookup_fmap. destruct (watch w !! n) as [[u'|]|]; cbn; [|split; [discriminate|intros [? ?]; discriminate]|split; [discriminate|intros [? ?]; discriminate]].
    destruct (decide (exists_v T' u')) as [D|D]; (split; [intros Q|intros [Q Q']]); try discriminate Q; injection Q as <-; [now split|reflexivity|contradiction]. }
  split.
  - constructor.
    + exact HT.
    + cbn. now rewrite <- WE.
    + cbn. rewrite NX. apply (rep_next h w REP).
    + intros u. cbn. destruct (decide (u = v)) as [->|D].
      * destruct (decide (uses x - 1 = 0)%nat) as [Z|Z].
        -- destruct HV as [_ ->]. split; [intros [? ?]; discriminate|]. intros K. apply EX in K. contradiction.
        -- destruct HV as (_ & x' & -> & _). split; [intros _; now apply EX|eauto].
      * rewrite (EO u D), <- (rep_live h w REP u). destruct (hv h !! u) as [y|] eqn:Y.
        -- destruct (HO u y D Y) as (y' & -> & _). split; eauto.
        -- now rewrite (HN0 u D Y).
    + intros u y' Y' i. cbn. destruct (decide (u = v)) as [->|D].
      * destruct (decide (uses x - 1 = 0)%nat) as [Z|Z]; [destruct HV; congruence|]. destruct HV as (_ & x' & E & _ & _ & P & _). rewrite E in Y'. injection Y' as <-. rewrite P. now apply (rep_pos h w REP).
      * destruct (hv h !! u) as [y|] eqn:Y; [|rewrite (HN0 u D Y) in Y'; discriminate]. destruct (HO u y D Y) as (y2 & E & P & _). rewrite E in Y'. injection Y' as <-. rewrite P. now apply (rep_pos h w REP).
    + intros u y' Y'. destruct (decide (u = v)) as [->|D].
      * destruct (decide (uses x - 1 = 0)%nat) as [Z|Z]; [destruct HV; congruence|]. destruct HV as (_ & x' & E & A & B & _). rewrite E in Y'. injection Y' as <-. rewrite A, B. now symmetry.
      * destruct (hv h !! u) as [y|] eqn:Y; [|rewrite (HN0 u D Y) in Y'; discriminate]. destruct (HO u y D Y) as (y2 & E & _ & _ & _ & A). rewrite E in Y'. injection Y' as <-.
        pose proof (rep_mass h w REP u y Y) as M. destruct (decide (T' !! p = Some u)); destruct A as [A1 A2]; rewrite A1, A2, M; [|reflexivity].
        rewrite size_union, size_singleton; [reflexivity|]. assert (p ∉ trbl_ptrs y); [|set_solver]. intros I. apply (rep_trbl h w REP u y p Y) in I. congruence.
    + intros u y' q Y'. cbn. destruct (decide (u = v)) as [->|D].
      * destruct (decide (uses x - 1 = 0)%nat) as [Z|Z]; [destruct HV; congruence|]. destruct HV as (_ & x' & E & A & _). rewrite E in Y'. injection Y' as <-. rewrite A.
        rewrite elem_of_difference, (rep_trbl h w REP v x q X), elem_of_singleton. destruct (decide (q = p)) as [->|Q]; [tauto|]. rewrite (ET q Q). tauto.
      * destruct (hv h !! u) as [y|] eqn:Y; [|rewrite (HN0 u D Y) in Y'; discriminate]. destruct (HO u y D Y) as (y2 & E & _ & _ & _ & A). rewrite E in Y'. injection Y' as <-.
        pose proof (rep_trbl h w REP u y q Y) as R. destruct (decide (q = p)) as [->|Q].
        -- destruct (decide (T' !! p = Some u)) as [K|K]; destruct A as [A _]; rewrite A; [|rewrite R; split; [congruence|contradiction]]. split; [now intros _|set_solver].
        -- rewrite (ET q Q), <- R. destruct (decide (T' !! p = Some u)) as [K|K]; destruct A as [A _]; rewrite A; set_solver.
    + intros u y' n Y'. rewrite PW. destruct (decide (u = v)) as [->|D].
      * destruct (decide (uses x - 1 = 0)%nat) as [Z|Z]; [destruct HV; congruence|]. destruct HV as (_ & x' & E & _ & _ & _ & A & _). rewrite E in Y'. injection Y' as <-. rewrite A, (rep_nont h w REP v x n X). tauto.
      * destruct (hv h !! u) as [y|] eqn:Y; [|rewrite (HN0 u D Y) in Y'; discriminate]. destruct (HO u y D Y) as (y2 & E & _ & A & _). rewrite E in Y'. injection Y' as <-. rewrite A, (rep_nont h w REP u y n Y).
        rewrite (EO u D). assert (exists_v (refers w) u) by (apply (rep_live h w REP); eauto). tauto.
    + intros u y' u' Y'. cbn. destruct (decide (u = v)) as [->|D].
      * destruct (decide (uses x - 1 = 0)%nat) as [Z|Z]; [destruct HV; congruence|]. destruct HV as (_ & x' & E & _ & _ & _ & _ & A). rewrite E in Y'. injection Y' as <-. rewrite A, (rep_nbs h w REP v x u' X).
        split; [|tauto]. intros L. split; [exact L|]. split; [tauto|]. apply EO; [apply not_eq_sym; now apply LK|]. apply (coh_linked w COH) in L. tauto.
      * destruct (hv h !! u) as [y|] eqn:Y; [|rewrite (HN0 u D Y) in Y'; discriminate]. destruct (HO u y D Y) as (y2 & E & _ & _ & A & _). rewrite E in Y'. injection Y' as <-.
        assert (LU : exists_v (refers w) u) by (apply (rep_live h w REP); eauto). pose proof (rep_nbs h w REP u y u' Y) as R.
        destruct (decide (uses x - 1 = 0)%nat) as [Z|Z]; rewrite A.
        -- rewrite elem_of_difference, elem_of_singleton, R. rewrite (EO u D). split; [intros [L N]|intros (L & _ & K)].
           ++ split; [exact L|]. split; [exact LU|]. apply EO; [exact N|]. apply (coh_linked w COH) in L. tauto.
           ++ split; [exact L|]. intros ->. apply EX in K. contradiction.
        -- rewrite R, (EO u D). split; [|tauto]. intros L. split; [exact L|]. split; [exact LU|]. destruct (decide (u' = v)) as [->|D']; [tauto|]. apply EO; [exact D'|]. apply (coh_linked w COH) in L. tauto.
  - constructor.
    + intros n u W. apply PW in W. tauto.
    + cbn. intros u u' (L & A & B). apply (coh_linked w COH) in L. tauto.
    + cbn. intros q u Q. destruct (decide (q = p)) as [->|D].
      * destruct (LT u Q) as (q' & Q'). split; [now apply (coh_names w COH p v)|now apply (coh_names w COH q' u)].
      * rewrite (ET q D) in Q. now apply (coh_names w COH).
    + cbn. intros n [t K]. rewrite lookup_fmap in K. destruct (watch w !! n) eqn:W; [|discriminate]. apply (coh_wnames w COH). rewrite W. eauto.
Qed.
End Drop.

(** ** Worlds that say the same *)
Definition same_world (w w' : world) : Prop :=
  refers w = refers w' /\ watch w = watch w' /\ names w = names w' /\ (forall v i, exists_v (refers w) v -> where_ w v i = where_ w' v i) /\ (forall u v, linked w u v <-> linked w' u v).
Lemma same_rep : forall h w w', represents h w -> coherent w -> same_world w w' -> represents h w' /\ coherent w'.
Proof.
  intros h w w' [A B C D E F G I J] [K L M O] (R & W & N & P & Q). split; constructor; rewrite <- ?R, <- ?W, <- ?N; try assumption.
  - intros v x X i. rewrite <- P; [now apply E|]. apply D. eauto.
  - intros v x u X. rewrite <- Q. now apply J.
  - intros u v X. rewrite <- !Q in *. now apply L.
Qed.
Lemma prune_same : forall w, coherent w -> same_world (prune w) w.
Proof.
  intros w C. split; [reflexivity|]. split; [|split; [reflexivity|split; [reflexivity|]]].
  - apply map_eq. intros n. cbn. rewrite lookup_fmap. destruct (watch w !! n) as [[u|]|] eqn:W; cbn; try reflexivity. rewrite decide_True; [reflexivity|]. now apply (coh_watch w C n).
  - intros u v. cbn. split; [tauto|]. intros L. pose proof (coh_linked w C u v L). tauto.
Qed.
Lemma prune_prune : forall w T T', (forall v, exists_v T' v -> exists_v T v) -> same_world (prune (set_refers (prune (set_refers w T)) T')) (prune (set_refers w T')).
Proof.
  intros w T T' M. split; [reflexivity|]. split; [|split; [reflexivity|split; [reflexivity|]]].
  - apply map_eq. intros n. cbn. rewrite !lookup_fmap. destruct (watch w !! n) as [[u|]|] eqn:W; cbn; try reflexivity.
    destruct (decide (exists_v T u)) as [D|D]; [reflexivity|]. rewrite decide_False; [reflexivity|]. intros K. apply D. now apply M.
  - intros u v. cbn. split; [tauto|]. intros (L & A & B). auto.
Qed.

Definition ok (o : option heap) (w : world) : Prop := exists h, o = Some h /\ represents h w /\ coherent w.

(** ** Destroying and assigning handles *)
Lemma destroy_rep : forall h w p v, represents h w -> coherent w -> refers w !! p = Some v -> ok (t_destroy p h) (prune (set_refers w (delete p (refers w)))).
Proof.
  intros h w p v REP COH PV. destruct (rep_tptr h w REP p v PV) as (t & T & TV). destruct (rep_vert h w REP p v PV) as (x & X & PX).
  destruct (rep_nb_live h w REP COH v x X) as [NV NL]. unfold t_destroy. rewrite T. cbn. rewrite TV, X. cbn.
  set (x0 := set_trbl x (trbl_ptrs x ∖ {[p]})). set (h0 := set_ht (put h v x0) (delete p (ht h))).
  destruct (release_eq v h0 x0) as (h' & E & HT & NX & R).
  - cbn. apply lookup_insert.
  - cbn. intros n. rewrite (rep_watch h w REP). now apply (rep_nont h w REP).
  - exact NV.
  - cbn. intros u U. rewrite lookup_insert_ne by set_solver. now apply NL.
  - exists h'. split; [exact E|]. unfold h0 in *. cbn in R. apply (dropped h w REP COH p v x); try assumption.
    + intros q Q. now rewrite lookup_delete_ne by congruence.
    + rewrite lookup_delete. discriminate.
    + intros u. rewrite lookup_delete. discriminate.
    + rewrite HT. cbn. now rewrite fmap_delete, (rep_refers h w REP).
    + cbn in R. destruct (decide (uses x - 1 = 0)%nat) as [Z|Z]; destruct R as [R1 R2]; (split; [exact R1|]).
      * rewrite R2. now rewrite decide_True.
      * rewrite R2, lookup_insert. eexists. split; [reflexivity|]. repeat split.
    + intros u U N. cbn in R. destruct (decide (uses x - 1 = 0)%nat) as [Z|Z]; destruct R as [R1 R2]; rewrite R2.
      * rewrite decide_False by exact U. rewrite lookup_insert_ne by congruence. rewrite N. now destruct (decide _).
      * now rewrite !lookup_insert_ne by congruence.
    + intros u y U Y. cbn in R. destruct (decide (uses x - 1 = 0)%nat) as [Z|Z]; destruct R as [R1 R2]; rewrite R2.
      * rewrite decide_False by exact U. rewrite lookup_insert_ne by congruence. rewrite Y. destruct (decide (u ∈ neighbors x)) as [I|I]; cbn; eexists; (split; [reflexivity|]); (rewrite (decide_False (P := delete p (refers w) !! p = Some u)) by (rewrite lookup_delete; discriminate)); repeat split.
        apply leibniz_equiv. intros a. assert (v ∉ neighbors y); [|set_solver]. intros K. apply I. apply (rep_nbs h w REP u y v Y) in K. apply (coh_linked w COH) in K. apply (rep_nbs h w REP v x u X). tauto.
      * rewrite !lookup_insert_ne by congruence. rewrite Y. eexists. split; [reflexivity|]. (rewrite (decide_False (P := delete p (refers w) !! p = Some u)) by (rewrite lookup_delete; discriminate)). repeat split.
Qed.

Lemma assign_rep : forall h w p q v v', represents h w -> coherent w -> refers w !! p = Some v -> refers w !! q = Some v' ->
  ok (t_assign p q h) (prune (set_refers w (<[p := v']> (refers w)))).
Proof.
  intros h w p q v v' REP COH PV QV. destruct (rep_tptr h w REP p v PV) as (t & T & TV). destruct (rep_vert h w REP p v PV) as (x & X & PX).
  destruct (rep_tptr h w REP q v' QV) as (t' & T' & TV'). destruct (rep_vert h w REP q v' QV) as (y & Y & QY).
  destruct (rep_nb_live h w REP COH v x X) as [NV NL]. unfold t_assign. rewrite T. cbn. rewrite TV, X. cbn. rewrite T'. cbn. rewrite TV'.
  set (x0 := set_trbl x (trbl_ptrs x ∖ {[p]})). destruct (decide (v' = v)) as [->|D].
  - rewrite X in Y. injection Y as <-. rewrite lookup_insert. cbn. unfold release. cbn. rewrite lookup_insert. cbn.
    assert (U : uses x <> 0%nat). { rewrite (rep_mass h w REP v x X). intros K. apply size_zero in K. set_solver. }
    rewrite decide_False by lia. cbn. rewrite lookup_insert. cbn. eexists. split; [reflexivity|].
    apply (same_rep _ w); [|exact COH|].
    + unfold put, set_hv, set_ht. cbn. unfold put, set_hv, set_ht. cbn. rewrite !insert_insert. assert (EX : Vert (pos x) (notes x) ({[p]} ∪ trbl_ptrs x ∖ {[p]}) (nont_ptrs x) (neighbors x) (uses x - 0) = x).
      { destruct x. cbn in *. f_equal; [|lia]. apply leibniz_equiv. intros a. destruct (decide (a = p)); set_solver. }
      unfold set_trbl, set_uses. cbn. rewrite EX, (insert_id (hv h)) by exact X.
      constructor; cbn; try apply REP. rewrite fmap_insert. cbn. rewrite (rep_refers h w REP). now apply insert_id.
    + rewrite insert_id by exact PV. destruct w as [wr ww wp wl wn]. destruct (prune_same _ COH) as (S1 & S2 & S3 & S4 & S5). unfold set_refers. cbn [refers watch where_ linked names]. split; [|split; [|split; [|split]]]; try (symmetry; assumption); [reflexivity|]. intros u1 v1. symmetry. apply S5.
  - rewrite lookup_insert_ne by congruence. rewrite Y. cbn. set (y0 := set_uses y (S (uses y))).
    set (h0 := set_ht _ _). destruct (release_eq v h0 x0) as (h' & E & HT & NX & R).
    + cbn. rewrite lookup_insert_ne by congruence. apply lookup_insert.
    + cbn. intros n. rewrite (rep_watch h w REP). now apply (rep_nont h w REP).
    + exact NV.
    + cbn. intros u U. destruct (decide (u = v')) as [->|DU]; [rewrite lookup_insert; eauto|]. rewrite !lookup_insert_ne by set_solver. now apply NL.
    + rewrite E. unfold h0 in *. cbn in R |- *.
      assert (YY : exists y1, hv h' !! v' = Some y1 /\ pos y1 = pos y /\ nont_ptrs y1 = nont_ptrs y /\ neighbors y1 = (if decide (uses x - 1 = 0)%nat then neighbors y ∖ {[v]} else neighbors y) /\ trbl_ptrs y1 = trbl_ptrs y /\ uses y1 = S (uses y)).
      { cbn in R. destruct (decide (uses x - 1 = 0)%nat) as [Z|Z]; destruct R as [R1 R2]; rewrite R2.
        - rewrite decide_False by exact D. rewrite lookup_insert. destruct (decide (v' ∈ neighbors x)) as [I|I]; cbn; eexists; (split; [reflexivity|]); repeat split.
          cbn. apply leibniz_equiv. intros a. assert (v ∉ neighbors y); [|set_solver]. intros K. apply I. apply (rep_nbs h w REP v' y v Y) in K. apply (coh_linked w COH) in K. apply (rep_nbs h w REP v x v' X). tauto.
        - rewrite lookup_insert_ne by congruence. rewrite lookup_insert. eexists. split; [reflexivity|]. repeat split. }
      destruct YY as (y1 & Y1 & YP & YN & YB & YT & YU). rewrite Y1. cbn. eexists. split; [reflexivity|].
      apply (dropped h w REP COH p v x); try assumption.
      * intros a A. now rewrite lookup_insert_ne by congruence.
      * rewrite lookup_insert. congruence.
      * intros u. rewrite lookup_insert. intros K. injection K as <-. now exists q.
      * cbn. rewrite HT. cbn. rewrite fmap_insert. cbn. now rewrite (rep_refers h w REP).
      * cbn. rewrite lookup_insert_ne by exact D. cbn in R. destruct (decide (uses x - 1 = 0)%nat) as [Z|Z]; destruct R as [R1 R2]; (split; [exact R1|]).
        -- rewrite R2. now rewrite decide_True.
        -- rewrite R2, lookup_insert. eexists. split; [reflexivity|]. repeat split.
      * intros u U N. cbn. assert (u <> v') by congruence. rewrite lookup_insert_ne by congruence. cbn in R. destruct (decide (uses x - 1 = 0)%nat) as [Z|Z]; destruct R as [R1 R2]; rewrite R2.
        -- rewrite decide_False by exact U. rewrite !lookup_insert_ne by congruence. rewrite N. now destruct (decide _).
        -- now rewrite !lookup_insert_ne by congruence.
      * intros u y2 U Y2. cbn. destruct (decide (u = v')) as [->|DU].
        -- rewrite Y in Y2. injection Y2 as <-. rewrite lookup_insert. eexists. split; [reflexivity|]. rewrite (decide_True (P := <[p := v']> (refers w) !! p = Some v')) by apply lookup_insert. cbn. rewrite YT. repeat split; assumption.
        -- rewrite lookup_insert_ne by congruence. cbn in R. destruct (decide (uses x - 1 = 0)%nat) as [Z|Z]; destruct R as [R1 R2]; rewrite R2.
           ++ rewrite decide_False by exact U. rewrite !lookup_insert_ne by congruence. rewrite Y2. destruct (decide (u ∈ neighbors x)) as [I|I]; cbn; eexists; (split; [reflexivity|]); (rewrite (decide_False (P := <[p := v']> (refers w) !! p = Some u)) by (rewrite lookup_insert; congruence)); repeat split.
              apply leibniz_equiv. intros a. assert (v ∉ neighbors y2); [|set_solver]. intros K. apply I. apply (rep_nbs h w REP u y2 v Y2) in K. apply (coh_linked w COH) in K. apply (rep_nbs h w REP v x u X). tauto.
           ++ rewrite !lookup_insert_ne by congruence. rewrite Y2. eexists. split; [reflexivity|]. (rewrite (decide_False (P := <[p := v']> (refers w) !! p = Some u)) by (rewrite lookup_insert; congruence)). repeat split.
Qed.
