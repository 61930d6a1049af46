(** Consequences for histories of merges, and sharing data at vertices. *)
From Coq Require Import Reals Lra Lia.
From stdpp Require Import gmap option list numbers fin_maps fin_sets.
From Verif Require Import Vertex_Model Vertex_Spec Vertex_Proofs Vertex_Proofs2.
Local Open Scope R_scope.

(** ** Sums over the handles of a vertex *)
Definition tally (f : nat -> R) (u : nat) (T : gmap nat nat) : R := map_fold (fun p v acc => if decide (v = u) then f p + acc else acc) 0 T.
Lemma tally_empty : forall f u, tally f u ∅ = 0.
Proof. intros f u. unfold tally. apply map_fold_empty. Qed.
Lemma tally_insert : forall f u T p v, T !! p = None -> tally f u (<[p := v]> T) = (if decide (v = u) then f p else 0) + tally f u T.
Proof.
  intros f u T p v N. unfold tally. rewrite map_fold_insert_L; [destruct (decide (v = u)); lra| |exact N].
  intros j1 j2 z1 z2 y _ _ _. destruct (decide (z1 = u)), (decide (z2 = u)); lra.
Qed.
Lemma tally_count : forall T u, INR (count T u) = tally (fun _ => 1) u T.
Proof.
  intros T u. induction T as [|p v T N IH] using map_ind.
  - rewrite tally_empty. unfold count. rewrite map_filter_empty, map_size_empty. reflexivity.
  - rewrite tally_insert by exact N. rewrite <- IH. unfold count. destruct (decide (v = u)) as [->|D].
    + rewrite map_filter_insert_True by reflexivity. rewrite map_size_insert_None; [rewrite S_INR; lra|]. apply map_filter_lookup_None. now left.
    + rewrite map_filter_insert_False by (cbn; congruence). rewrite delete_notin by exact N. lra.
Qed.
Lemma tally_relabel : forall f a b T u, a <> b -> tally f u (relabel b a T) = if decide (u = a) then tally f a T + tally f b T else if decide (u = b) then 0 else tally f u T.
Proof.
  intros f a b T u D. induction T as [|p v T N IH] using map_ind.
  - unfold relabel. rewrite fmap_empty, !tally_empty. destruct (decide (u = a)), (decide (u = b)); lra.
  - assert (E : relabel b a (<[p := v]> T) = <[p := if decide (v = b) then a else v]> (relabel b a T)) by (unfold relabel; now rewrite fmap_insert).
    rewrite E, tally_insert by (unfold relabel; now rewrite lookup_fmap, N). rewrite IH, !tally_insert by exact N.
    destruct (decide (v = b)), (decide (u = a)), (decide (u = b)), (decide (a = u)), (decide (v = u)), (decide (v = a)); try congruence; lra.
Qed.
Lemma tally_none : forall f T u, ~ exists_v T u -> tally f u T = 0.
Proof.
  intros f T u. induction T as [|p v T N IH] using map_ind; intros E.
  - apply tally_empty.
  - rewrite tally_insert by exact N. rewrite decide_False.
    + rewrite IH; [lra|]. intros (q & Q). apply E. exists q. rewrite lookup_insert_ne; [exact Q|congruence].
    + intros ->. apply E. exists p. apply lookup_insert.
Qed.
Lemma tally_list : forall f u l T, NoDup l -> (forall p, p ∈ l <-> T !! p = Some u) -> tally f u T = foldr Rplus 0 (f <$> l).
Proof.
  intros f u. induction l as [|p l IH]; intros T ND L.
  - cbn. apply tally_none. intros (q & Q). apply L in Q. now apply elem_of_nil in Q.
  - apply NoDup_cons in ND. destruct ND as [NI ND]. assert (P : T !! p = Some u) by (apply L; left).
    rewrite <- (insert_delete T p u P). rewrite tally_insert by apply lookup_delete. rewrite decide_True by reflexivity. cbn. f_equal. apply IH; [exact ND|].
    intros q. destruct (decide (q = p)) as [->|D]; [rewrite lookup_delete; split; [intros; contradiction|discriminate]|].
    rewrite lookup_delete_ne by congruence. rewrite <- L, elem_of_cons. tauto.
Qed.

Definition balanced (c : nat -> point) (w : world) : Prop := forall v i, exists_v (refers w) v -> INR (count (refers w) v) * where_ w v i = tally (fun p => c p i) v (refers w).

Lemma count_pos : forall T v, exists_v T v -> 0 < INR (count T v).
Proof.
  intros T v E. apply lt_0_INR. destruct (count T v) eqn:K; [|lia]. exfalso. now apply (count_zero T v).
Qed.

Lemma balanced_merge : forall c w a b, balanced c w -> exists_v (refers w) a -> exists_v (refers w) b -> balanced c (merge a b w).
Proof.
  intros c w a b B EA EB. unfold merge. destruct (decide (a = b)) as [->|D]; [exact B|]. intros v i. cbn. fold (relabel b a (refers w)). intros E.
  rewrite tally_count. rewrite !tally_relabel by exact D. destruct (decide (v = a)) as [->|DV].
  - rewrite <- !tally_count. rewrite <- (B a i EA), <- (B b i EB). pose proof (count_pos _ _ EA). pose proof (count_pos _ _ EB). field. lra.
  - destruct (decide (v = b)) as [->|DB]; [lra|]. rewrite <- tally_count. apply B. apply relabel_exists in E. tauto.
Qed.

Lemma births_other : forall os n p, (p < n)%nat -> births n os p = fun _ => 0.
Proof.
  induction os as [|o os IH]; intros n p L; [reflexivity|]. destruct o; cbn; try (now apply IH); try (apply IH; lia). rewrite decide_False by lia. apply IH. lia.
Qed.

Lemma balanced_run : forall os c w w', Forall only_merges os -> coherent w -> spec_run os w = Some w' -> (forall p, (names w <= p)%nat -> c p = births (names w) os p) -> balanced c w -> balanced c w'.
Proof.
  unfold spec_run. induction os as [|o os IH]; intros c w w' O C S CB B.
  - cbn in S. now injection S as <-.
  - apply Forall_cons in O. destruct O as [O OS]. cbn [foldl mbind option_bind] in S. destruct (spec_step o w) as [w1|] eqn:E; [|rewrite run_none in S; discriminate].
    assert (C1 : coherent w1 /\ balanced c w1 /\ forall p, (names w1 <= p)%nat -> c p = births (names w1) os p).
    { assert (NX : forall u, refers w !! u = refers w !! u) by reflexivity.
      destruct o; cbn [spec_step only_merges] in E, O; try contradiction; cbn [births] in CB.
      - injection E as <-. split; [|split].
        + assert (N : refers w !! names w = None). { destruct (refers w !! names w) as [v|] eqn:K; [|reflexivity]. apply (coh_names w C) in K. lia. }
          destruct C as [D1 D2 D3 D4]. constructor; cbn.
          * intros n v K. rewrite exists_insert_fresh by exact N. left. now apply (D1 n).
          * intros u v K. rewrite !exists_insert_fresh by exact N. apply D2 in K. tauto.
          * intros q v. destruct (decide (q = names w)) as [->|Q]; [rewrite lookup_insert; intros K; injection K as <-; lia|rewrite lookup_insert_ne by congruence; intros K; apply D3 in K; lia].
          * intros n K. apply D4 in K. lia.
        + assert (N : refers w !! names w = None). { destruct (refers w !! names w) as [v|] eqn:K; [|reflexivity]. apply (coh_names w C) in K. lia. }
          assert (NE : ~ exists_v (refers w) (names w)). { intros (q & Q). apply (coh_names w C) in Q. lia. }
          intros v i. cbn. intros E. rewrite tally_count, !tally_insert by exact N. destruct (decide (v = names w)) as [->|D].
          * rewrite decide_True by reflexivity. rewrite !tally_none by exact NE. rewrite (CB (names w)) by lia. rewrite ?decide_True by reflexivity. lra.
          * rewrite !(decide_False (P := names w = v)) by congruence. rewrite <- tally_count. rewrite !Rplus_0_l. apply (B v i). apply exists_insert_fresh in E; [|exact N]. destruct E as [E|E]; [exact E|congruence].
        + cbn. intros q Q. rewrite CB by lia. now rewrite decide_False by lia.
      - apply bind_Some in E. destruct E as (a & P & E). apply bind_Some in E. destruct E as (b & Q & E). injection E as <-. split; [|split].
        + unfold merge. destruct (decide (a = b)) as [->|D]; [exact C|]. fold (relabel b a (refers w)). destruct C as [D1 D2 D3 D4]. constructor; cbn.
          * intros n v K. rewrite lookup_fmap in K. destruct (watch w !! n) as [[t|]|]; try discriminate. cbn in K. destruct (decide _) as [X|X]; [|discriminate]. now injection K as <-.
          * intros u v ([K|[K|K]] & U & V).
            -- apply D2 in K. tauto.
            -- destruct K as (-> & K & N). repeat split; auto; right; right; tauto.
            -- destruct K as (-> & K & N). repeat split; auto; right; left; tauto.
          * intros r v. unfold relabel. rewrite lookup_fmap. destruct (refers w !! r) as [u|] eqn:U; [|discriminate]. cbn. intros K. injection K as K. apply D3 in U. apply D3 in P. destruct (decide (u = b)); subst; lia.
          * intros n. rewrite lookup_fmap. intros [t K]. apply D4. destruct (watch w !! n); [eauto|discriminate].
        + apply balanced_merge; [exact B|now exists p|now exists q].
        + assert (M : names (merge a b w) = names w) by (unfold merge; now destruct (decide (a = b))). rewrite M. exact CB.
      - apply bind_Some in E. destruct E as (a & P & E). apply bind_Some in E. destruct E as (b & Q & E). injection E as <-. destruct (decide (a = b)) as [->|D]; [split; [exact C|split; [exact B|exact CB]]|].
        split; [|split; [exact B|exact CB]]. destruct C as [D1 D2 D3 D4]. constructor; cbn; try assumption. intros u v [K|[[-> ->]|[-> ->]]].
        + apply D2 in K. tauto.
        + repeat split; auto; [now exists p|now exists q].
        + repeat split; auto; [now exists q|now exists p].
      - apply bind_Some in E. destruct E as (a0 & P & E). now injection E as <-.
      - apply bind_Some in E. destruct E as (a0 & P & E). now injection E as <-.
      - apply bind_Some in E. destruct E as (a0 & P & E). now injection E as <-.
      - apply bind_Some in E. destruct E as (a & P & E). injection E as <-. split; [|split; [exact B|intros q Q; apply CB; cbn in Q; lia]].
        destruct C as [D1 D2 D3 D4]. constructor; cbn; try assumption.
        + intros n v. destruct (decide (n = names w)) as [->|D]; [rewrite lookup_insert; intros K; injection K as <-; now exists p|rewrite lookup_insert_ne by congruence; apply D1].
        + intros r v K. apply D3 in K. lia.
        + intros n. destruct (decide (n = names w)) as [->|D]; [intros _; lia|rewrite lookup_insert_ne by congruence; intros K; apply D4 in K; lia].
      - apply bind_Some in E. destruct E as (t & P & E). injection E as <-. split; [|split; [exact B|intros q Q; apply CB; cbn in Q; lia]].
        destruct C as [D1 D2 D3 D4]. constructor; cbn; try assumption.
        + intros n v. destruct (decide (n = names w)) as [->|D]; [rewrite lookup_insert; intros K; injection K as ->; now apply (D1 m)|rewrite lookup_insert_ne by congruence; apply D1].
        + intros r v K. apply D3 in K. lia.
        + intros n. destruct (decide (n = names w)) as [->|D]; [intros _; lia|rewrite lookup_insert_ne by congruence; intros K; apply D4 in K; lia].
      - apply bind_Some in E. destruct E as (t & P & E). injection E as <-. split; [|split; [exact B|exact CB]]. destruct C as [D1 D2 D3 D4]. constructor; cbn; try assumption.
        + intros r v K. apply lookup_delete_Some in K. now apply (D1 r).
        + intros r [v K]. apply lookup_delete_Some in K. apply D4. exists v. tauto.
      - apply bind_Some in E. destruct E as (t & P & E). apply bind_Some in E. destruct E as (t' & Q & E). injection E as <-. split; [|split; [exact B|exact CB]]. destruct C as [D1 D2 D3 D4]. constructor; cbn; try assumption.
        + intros r v. destruct (decide (r = n)) as [->|D]; [rewrite lookup_insert; intros K; injection K as K; destruct (decide (n = m)); [discriminate|subst; now apply (D1 m)]|rewrite lookup_insert_ne by congruence; apply D1].
        + intros r. destruct (decide (r = n)) as [->|D]; [intros _; apply D4; eauto|rewrite lookup_insert_ne by congruence; apply D4].
      - apply bind_Some in E. destruct E as (t & P & E). injection E as <-. split; [|split; [exact B|exact CB]]. destruct C as [D1 D2 D3 D4]. constructor; cbn; try assumption.
        + intros r v. destruct (decide (r = n)) as [->|D]; [rewrite lookup_insert; discriminate|rewrite lookup_insert_ne by congruence; apply D1].
        + intros r. destruct (decide (r = n)) as [->|D]; [intros _; apply D4; eauto|rewrite lookup_insert_ne by congruence; apply D4]. }
    destruct C1 as (C1 & B1 & CB1). now apply (IH c w1).
Qed.

(** ** Once merged, always the same *)
Lemma together_step : forall o p q w w' v, ~ reassigns p o -> ~ reassigns q o -> coherent w -> spec_step o w = Some w' -> refers w !! p = Some v -> refers w !! q = Some v ->
  exists u, refers w' !! p = Some u /\ refers w' !! q = Some u.
Proof.
  intros o p q w w' v NP NQ C S P Q. assert (LP : p <> names w) by (intros ->; apply (coh_names w C) in P; lia). assert (LQ : q <> names w) by (intros ->; apply (coh_names w C) in Q; lia).
  destruct o; cbn [spec_step reassigns] in S, NP, NQ; try (apply bind_Some in S; destruct S as (a & A & S)); try (apply bind_Some in S; destruct S as (b & BB & S)); injection S as <-; cbn.
  - exists v. now rewrite !lookup_insert_ne by congruence.
  - exists v. now rewrite !lookup_insert_ne by congruence.
  - exists v. now rewrite !lookup_delete_ne by congruence.
  - exists v. now rewrite !lookup_insert_ne by congruence.
  - unfold merge. destruct (decide (a = b)); [now exists v|]. cbn. rewrite !lookup_fmap, P, Q. cbn. eauto.
  - exists v. destruct (decide (a = b)); now split.
  - now exists v.
  - now exists v.
  - now exists v.
  - now exists v.
  - now exists v.
  - now exists v.
  - now exists v.
  - now exists v.
  - now exists v.
Qed.
Lemma together_run : forall os p q h w w' v, Forall (fun o => ~ reassigns p o /\ ~ reassigns q o) os -> represents h w -> coherent w -> spec_run os w = Some w' -> refers w !! p = Some v -> refers w !! q = Some v ->
  exists u, refers w' !! p = Some u /\ refers w' !! q = Some u.
Proof.
  unfold spec_run. induction os as [|o os IH]; intros p q h w w' v F R C S P Q.
  - cbn in S. injection S as <-. eauto.
  - apply Forall_cons in F. destruct F as [[F1 F2] F]. cbn [foldl mbind option_bind] in S. destruct (spec_step o w) as [w1|] eqn:E; [|rewrite run_none in S; discriminate].
    destruct (together_step o p q w w1 v F1 F2 C E P Q) as (u & U & U'). destruct (step_rep o h w w1 R C E) as (h1 & _ & R1 & C1). now apply (IH p q h1 w1 w' u).
Qed.

(** ** Flags and values of the handles of a vertex *)
Lemma handles_rep : forall h w v, represents h w -> exists_v (refers w) v -> exists l, handles v h = Some l /\ l <> [] /\ forall t, t ∈ l <-> exists p, ht h !! p = Some t /\ refers w !! p = Some v.
Proof.
  intros h w v R (p & P). destruct (rep_vert h w R p v P) as (x & X & PX). unfold handles. rewrite X. cbn [mbind option_bind].
  assert (A : forall q, q ∈ elements (trbl_ptrs x) -> is_Some (ht h !! q)).
  { intros q Q. apply elem_of_elements in Q. apply (rep_trbl h w R v x q X) in Q. destruct (rep_tptr h w R q v Q) as (t & T & _). eauto. }
  destruct (mapM (fun q => ht h !! q) (elements (trbl_ptrs x))) as [l|] eqn:M.
  - exists l. split; [reflexivity|]. apply mapM_Some in M. split.
    + intros ->. apply Forall2_nil_inv_r in M. apply elem_of_elements in PX. rewrite M in PX. now apply elem_of_nil in PX.
    + intros t. split.
      * intros T. apply elem_of_list_lookup in T. destruct T as (i & T). destruct (Forall2_lookup_r _ _ _ _ _ M T) as (q & Q & K). exists q. split; [exact K|].
        apply (rep_trbl h w R v x q X). apply elem_of_elements. now apply elem_of_list_lookup_2 in Q.
      * intros (q & K & Q). apply (rep_trbl h w R v x q X) in Q. apply elem_of_elements in Q. apply elem_of_list_lookup in Q. destruct Q as (i & Q).
        destruct (Forall2_lookup_l _ _ _ _ _ M Q) as (t' & T' & K'). assert (t' = t) by congruence. subst. now apply elem_of_list_lookup_2 in T'.
  - exfalso. apply mapM_None in M. apply Exists_exists in M. destruct M as (q & Q & K). destruct (A q Q) as [t T]. congruence.
Qed.

Lemma mobile_rep : forall h w v, represents h w -> exists_v (refers w) v -> exists b, is_mobile v h = Some b /\ (b = true <-> forall p t, ht h !! p = Some t -> refers w !! p = Some v -> mobile t = true).
Proof.
  intros h w v R E. destruct (handles_rep h w v R E) as (l & L & _ & I). unfold is_mobile. rewrite L. cbn [mbind option_bind]. eexists. split; [reflexivity|]. rewrite forallb_forall. split.
  - intros H p t T P. apply H. apply elem_of_list_In, I. eauto.
  - intros H t T. apply elem_of_list_In, I in T. destruct T as (p & T & P). eauto.
Qed.
Lemma smooth_rep : forall h w v, represents h w -> exists_v (refers w) v -> exists b, needs_smooth v h = Some b /\ (b = true <-> exists p t, ht h !! p = Some t /\ refers w !! p = Some v /\ needs_smooth_ t = true).
Proof.
  intros h w v R E. destruct (handles_rep h w v R E) as (l & L & _ & I). unfold needs_smooth. rewrite L. cbn [mbind option_bind]. eexists. split; [reflexivity|]. rewrite existsb_exists. split.
  - intros (t & T & N). apply elem_of_list_In, I in T. destruct T as (p & T & P). eauto 6.
  - intros (p & t & T & P & N). exists t. split; [|exact N]. apply elem_of_list_In, I. eauto.
Qed.

Lemma vector_max_greatest : forall l, l <> [] -> greatest (vector_max l) (fun a => a ∈ l).
Proof.
  intros [|a l] N; [contradiction|]. cbn [vector_max]. clear N. revert a. induction l as [|b l IH]; intros a.
  - split; [left|]. intros c K. apply elem_of_list_singleton in K. subst. cbn. lra.
  - cbn [foldl]. destruct (IH (Rmax a b)) as [I M]. split.
    + apply elem_of_cons in I. destruct I as [E|I]; [|right; now right]. unfold greatest. rewrite E. unfold Rmax. destruct (Rle_dec a b); [right; left|left].
    + intros c K. apply elem_of_cons in K. destruct K as [->|K].
      * apply Rle_trans with (Rmax a b); [apply Rmax_l|apply M; left].
      * apply elem_of_cons in K. destruct K as [->|K]; [|apply M; now right]. apply Rle_trans with (Rmax a b); [apply Rmax_r|apply M; left].
Qed.
Lemma vector_min_least : forall l, l <> [] -> least (vector_min l) (fun a => a ∈ l).
Proof.
  intros [|a l] N; [contradiction|]. cbn [vector_min]. clear N. revert a. induction l as [|b l IH]; intros a.
  - split; [left|]. intros c K. apply elem_of_list_singleton in K. subst. cbn. lra.
  - cbn [foldl]. destruct (IH (Rmin a b)) as [I M]. split.
    + apply elem_of_cons in I. destruct I as [E|I]; [|right; now right]. rewrite E. unfold Rmin. destruct (Rle_dec a b); [left|right; left].
    + intros c K. apply elem_of_cons in K. destruct K as [->|K].
      * apply Rle_trans with (Rmin a b); [apply M; left|apply Rmin_l].
      * apply elem_of_cons in K. destruct K as [->|K]; [|apply M; now right]. apply Rle_trans with (Rmin a b); [apply M; left|apply Rmin_r].
Qed.

(** ** Sharing *)
Lemma push_all : forall els get w order h, represents h w -> coherent w -> owns_handles els w -> (forall k, k ∈ order -> exists p, place els k p) ->
  exists h', foldl (push_one els get) (Some h) order = Some h' /\ represents h' w /\ (forall k p, place els k p -> k ∈ order -> exists t, ht h' !! p = Some t /\ shareable_value t = Some (get k.1 k.2)) /\
    (forall k p, place els k p -> k ∉ order -> ht h' !! p = ht h !! p).
Proof.
  intros els get w. induction order as [|k order IH]; intros h R C O P.
  - exists h. split; [reflexivity|]. split; [exact R|]. split; [intros k p _ K; now apply elem_of_nil in K|auto].
  - destruct (P k) as (p & l & L & LP); [left|]. destruct (own_live _ _ O k p) as [v V]; [now exists l|].
    destruct (rep_tptr h w R p v V) as (t & T & TV). destruct (step_rep (OShare p (get k.1 k.2)) h w w R C) as (h1 & E1 & R1 & C1).
    { cbn [spec_step]. now rewrite V. }
    pose proof E1 as E1'. cbn [step] in E1'. rewrite T in E1'. cbn [mbind option_bind] in E1'. injection E1' as E1'.
    cbn [foldl]. unfold push_one at 2. cbn [mbind option_bind]. rewrite L. cbn [mbind option_bind]. rewrite LP. cbn [mbind option_bind]. rewrite E1.
    destruct (IH h1 R1 C1 O) as (h2 & E2 & R2 & A2 & B2); [intros k' K'; apply P; now right|]. exists h2. split; [exact E2|]. split; [exact R2|]. split.
    + intros k' p' PL K'. destruct (decide (k' ∈ order)) as [I|I]; [now apply A2|]. assert (k' = k) by (apply elem_of_cons in K'; tauto). subst k'.
      assert (p' = p). { destruct PL as (l' & L' & LP'). congruence. } subst p'. rewrite (B2 k p PL I), <- E1'. cbn. rewrite lookup_insert. eexists. split; [reflexivity|]. reflexivity.
    + intros k' p' PL K'. rewrite not_elem_of_cons in K'. rewrite (B2 k' p' PL) by tauto. rewrite <- E1'. cbn. rewrite lookup_insert_ne; [reflexivity|]. intros <-.
      apply (proj1 K'). apply (own_once _ _ O k' k p PL). now exists l.
Qed.

Lemma fetch_all : forall els reduction h val order d, (forall k, k ∈ order -> exists p t, place els k p /\ ht h !! p = Some t /\ shared_value reduction (ptr t) h = Some (val k)) ->
  exists d', foldl (fetch_one els reduction h) (Some d) order = Some d' /\ forall k, d' !! k = if decide (k ∈ order) then Some (val k) else d !! k.
Proof.
  intros els reduction h val. induction order as [|k order IH]; intros d V.
  - exists d. split; reflexivity.
  - destruct (V k) as (p & t & (l & L & LP) & T & S); [left|]. cbn [foldl]. unfold fetch_one at 2. cbn [mbind option_bind]. rewrite L. cbn [mbind option_bind]. rewrite LP. cbn [mbind option_bind]. rewrite T. cbn [mbind option_bind]. rewrite S. cbn [mbind option_bind].
    destruct (IH (<[k := val k]> d)) as (d' & E & D); [intros k' K'; apply V; now right|]. exists d'. split; [exact E|]. intros k'. rewrite D.
    destruct (decide (k' ∈ order)) as [I|I]; [rewrite decide_True by (now right); reflexivity|]. destruct (decide (k' = k)) as [->|N].
    + rewrite decide_True by left. apply lookup_insert.
    + rewrite decide_False by (rewrite elem_of_cons; tauto). apply lookup_insert_ne. congruence.
Qed.

Lemma share_rep : forall els get reduction order0 order1 h w d, represents h w -> coherent w -> owns_handles els w ->
  (forall k, k ∈ order0 <-> exists p, place els k p) -> (forall k, k ∈ order1 <-> exists p, place els k p) ->
  exists h' d', share_vertex_data els get reduction order0 order1 h d = Some (h', d') /\ represents h' w /\
    forall k v, touches els w k.1 k.2 v -> exists l, d' !! k = Some (reduction l) /\ l <> [] /\ forall a, a ∈ l <-> exists e i, touches els w e i v /\ a = get e i.
Proof.
  intros els get reduction order0 order1 h w d R C O O0 O1. destruct (push_all els get w order0 h R C O) as (h1 & E1 & R1 & A1 & _); [intros k K; now apply O0|].
  assert (SV : forall v, exists_v (refers w) v -> exists l, shared_value reduction v h1 = Some (reduction l) /\ l <> [] /\ forall a, a ∈ l <-> exists e i, touches els w e i v /\ a = get e i).
  { intros v E. destruct (handles_rep h1 w v R1 E) as (l & L & NE & I). unfold shared_value. rewrite L. cbn [mbind option_bind].
    assert (SH : forall t, t ∈ l -> exists k p, place els k p /\ refers w !! p = Some v /\ ht h1 !! p = Some t /\ shareable_value t = Some (get k.1 k.2)).
    { intros t T. apply I in T. destruct T as (p & T & P). destruct (own_all _ _ O p) as (k & PL); [eauto|]. exists k, p. split; [exact PL|]. split; [exact P|]. split; [exact T|].
      destruct (A1 k p PL) as (t' & T' & S'); [apply O0; eauto|]. congruence. }
    destruct (mapM shareable_value l) as [vals|] eqn:M.
    - cbn [mbind option_bind]. exists vals. split; [reflexivity|]. apply mapM_Some in M. split; [intros ->; apply Forall2_nil_inv_r in M; contradiction|].
      intros a. split.
      + intros K. apply elem_of_list_lookup in K. destruct K as (i & K). destruct (Forall2_lookup_r _ _ _ _ _ M K) as (t & T & S). apply elem_of_list_lookup_2 in T.
        destruct (SH t T) as (k & p & (l' & L' & LP) & P & _ & S'). exists k.1, k.2. split; [exists l', p; auto|congruence].
      + intros (e & i & (l' & p & L' & LP & P) & ->). destruct (A1 (e, i) p) as (t & T & S); [now exists l'|apply O0; exists p; now exists l'|].
        assert (TI : t ∈ l) by (apply I; eauto). apply elem_of_list_lookup in TI. destruct TI as (j & J). destruct (Forall2_lookup_l _ _ _ _ _ M J) as (b & BB & SB).
        cbn in S. assert (b = get e i) by congruence. subst b. now apply elem_of_list_lookup_2 in BB.
    - exfalso. apply mapM_None in M. apply Exists_exists in M. destruct M as (t & T & K). destruct (SH t T) as (k & p & _ & _ & _ & S). congruence. }
  assert (VAL : forall k, k ∈ order1 -> exists p t v l, place els k p /\ ht h1 !! p = Some t /\ ptr t = v /\ refers w !! p = Some v /\ shared_value reduction v h1 = Some (reduction l) /\ l <> [] /\ forall a, a ∈ l <-> exists e i, touches els w e i v /\ a = get e i).
  { intros k K. apply O1 in K. destruct K as (p & PL). destruct (own_live _ _ O k p PL) as [v V]. destruct (rep_tptr h1 w R1 p v V) as (t & T & TV).
    destruct (SV v) as (l & SL & NE & I); [now exists p|]. exists p, t, v, l. auto 10. }
  set (val := fun k : nat * nat => match els !! k.1 with Some l => match l !! k.2 with Some p => match ht h1 !! p with Some t => match shared_value reduction (ptr t) h1 with Some a => a | None => 0 end | None => 0 end | None => 0 end | None => 0 end).
  destruct (fetch_all els reduction h1 val order1 d) as (d1 & E2 & D1).
  { intros k K. destruct (VAL k K) as (p & t & v & l & PL & T & TV & V & S & _). exists p, t. split; [exact PL|]. split; [exact T|]. rewrite TV, S. unfold val. destruct PL as (l' & L' & LP). rewrite L', LP, T, TV, S. reflexivity. }
  exists h1, d1. split.
  - unfold share_vertex_data. rewrite E1. cbn [mbind option_bind]. rewrite E2. reflexivity.
  - split; [exact R1|]. intros k v (l0 & p0 & L0 & LP0 & P0). assert (K : k ∈ order1) by (apply O1; exists p0; now exists l0).
    destruct (VAL k K) as (p & t & v' & l & (l' & L' & LP) & T & TV & V & S & NE & I). assert (p = p0) by congruence. subst p0. assert (VV : v' = v) by congruence. rewrite VV in *. clear VV v'.
    exists l. split; [|split; [exact NE|exact I]]. rewrite D1, decide_True by exact K. f_equal. unfold val. rewrite L', LP, T, TV, S. reflexivity.
Qed.
