(** Proofs about shared vertices: merging, and every operation. *)
From Coq Require Import Reals Lra Lia.
From stdpp Require Import gmap option list numbers fin_maps fin_sets.
From Verif Require Import Vertex_Model Vertex_Spec Vertex_Proofs.

(** ** Edges *)
Definition links (a : nat) (l : list nat) (w : world) : world :=
  World (refers w) (watch w) (where_ w) (fun u v => linked w u v \/ (u = a /\ v ∈ l /\ v <> a) \/ (v = a /\ u ∈ l /\ u <> a)) (names w).

Lemma live : forall h w v, represents h w -> exists_v (refers w) v -> exists x, hv h !! v = Some x.
Proof. intros h w v R E. now apply (rep_live h w R) in E. Qed.

Lemma connect_rep : forall h w a b, represents h w -> coherent w -> exists_v (refers w) a -> exists_v (refers w) b -> ok (connect a b h) (links a [b] w).
Proof.
  intros h w a b R C EA EB. unfold connect. destruct (decide (a = b)) as [->|D].
  - exists h. split; [reflexivity|]. apply (same_rep h w _ R C). split; [reflexivity|]. split; [reflexivity|]. split; [reflexivity|]. split; [reflexivity|].
    intros u v. cbn. rewrite !elem_of_list_singleton. split; [tauto|]. intros [H|[H|H]]; [exact H| |]; destruct H as (-> & -> & H); contradiction.
  - destruct (live h w a R EA) as [x X]. destruct (live h w b R EB) as [y Y]. rewrite X. cbn. rewrite lookup_insert_ne by congruence. rewrite Y. cbn.
    eexists. split; [reflexivity|]. split.
    + destruct R as [R1 R2 R3 R4 R5 R6 R7 R8 R9]. constructor; cbn; try assumption.
      * intros v. rewrite <- R4. destruct (decide (v = b)) as [->|DB]; [rewrite lookup_insert, Y; split; eauto|]. rewrite lookup_insert_ne by congruence.
        destruct (decide (v = a)) as [->|DA]; [rewrite lookup_insert, X; split; eauto|]. now rewrite lookup_insert_ne by congruence.
      * intros v z. destruct (decide (v = b)) as [->|DB]; [rewrite lookup_insert; intros Z; injection Z as <-; cbn; now apply R5|]. rewrite lookup_insert_ne by congruence.
        destruct (decide (v = a)) as [->|DA]; [rewrite lookup_insert; intros Z; injection Z as <-; cbn; now apply R5|]. rewrite lookup_insert_ne by congruence. apply R5.
      * intros v z. destruct (decide (v = b)) as [->|DB]; [rewrite lookup_insert; intros Z; injection Z as <-; cbn; now apply R6 with b|]. rewrite lookup_insert_ne by congruence.
        destruct (decide (v = a)) as [->|DA]; [rewrite lookup_insert; intros Z; injection Z as <-; cbn; now apply R6 with a|]. rewrite lookup_insert_ne by congruence. apply R6.
      * intros v z p. destruct (decide (v = b)) as [->|DB]; [rewrite lookup_insert; intros Z; injection Z as <-; cbn; now apply R7|]. rewrite lookup_insert_ne by congruence.
        destruct (decide (v = a)) as [->|DA]; [rewrite lookup_insert; intros Z; injection Z as <-; cbn; now apply R7|]. rewrite lookup_insert_ne by congruence. apply R7.
      * intros v z p. destruct (decide (v = b)) as [->|DB]; [rewrite lookup_insert; intros Z; injection Z as <-; cbn; now apply R8|]. rewrite lookup_insert_ne by congruence.
        destruct (decide (v = a)) as [->|DA]; [rewrite lookup_insert; intros Z; injection Z as <-; cbn; now apply R8|]. rewrite lookup_insert_ne by congruence. apply R8.
      * intros v z u. rewrite !elem_of_list_singleton. destruct (decide (v = b)) as [->|DB].
        -- rewrite lookup_insert. intros Z; injection Z as <-. cbn. rewrite elem_of_union, elem_of_singleton, (R9 b y u Y). split; [intros [->|H]; auto|intros [H|[H|H]]; [now right|destruct H as (H & _); congruence|destruct H as (H & _); now left]].
        -- rewrite lookup_insert_ne by congruence. destruct (decide (v = a)) as [->|DA].
           ++ rewrite lookup_insert. intros Z; injection Z as <-. cbn. rewrite elem_of_union, elem_of_singleton, (R9 a x u X). split; [intros [->|H]; auto|intros [H|[H|H]]; [now right|destruct H as (_ & H & _); now left|destruct H as (_ & H & _); congruence]].
           ++ rewrite lookup_insert_ne by congruence. intros Z. rewrite (R9 v z u Z). split; [auto|]. intros [H|[H|H]]; [exact H|destruct H as (H & _); congruence|destruct H as (_ & H & _); congruence].
    + destruct C as [C1 C2 C3 C4]. constructor; cbn; try assumption. intros u v. rewrite !elem_of_list_singleton. intros [H|[H|H]].
      * specialize (C2 u v H). tauto.
      * destruct H as (-> & -> & H). repeat split; auto.
      * destruct H as (-> & -> & H). repeat split; auto.
Qed.

Lemma links_rep : forall a l h w, represents h w -> coherent w -> exists_v (refers w) a -> Forall (exists_v (refers w)) l ->
  ok (foldl (fun o u => h ← o; connect a u h) (Some h) l) (links a l w).
Proof.
  intros a. induction l as [|b l IH]; intros h w R C EA EL.
  - exists h. split; [reflexivity|]. apply (same_rep h w _ R C). split; [reflexivity|]. split; [reflexivity|]. split; [reflexivity|]. split; [reflexivity|].
    intros u v. cbn. split; [tauto|]. intros [H|[(_ & H & _)|(_ & H & _)]]; [exact H|now apply elem_of_nil in H|now apply elem_of_nil in H].
  - apply Forall_cons in EL. destruct EL as [EB EL]. destruct (connect_rep h w a b R C EA EB) as (h1 & E1 & R1 & C1). cbn [foldl]. cbn [mbind option_bind]. rewrite E1.
    destruct (IH h1 _ R1 C1 EA EL) as (h2 & E2 & R2 & C2). exists h2. split; [exact E2|]. apply (same_rep h2 _ _ R2 C2).
    split; [reflexivity|]. split; [reflexivity|]. split; [reflexivity|]. split; [reflexivity|].
    intros u v. cbn. rewrite !elem_of_list_singleton, !elem_of_cons. tauto.
Qed.

(** ** Moving handles *)
Definition relabel (b a : nat) (T : gmap nat nat) : gmap nat nat := (fun v => if decide (v = b) then a else v) <$> T.

Lemma count_insert : forall T p a b, a <> b -> T !! p = Some b -> count T b = S (count (<[p := a]> T) b).
Proof.
  intros T p a b D P. unfold count. rewrite map_filter_insert_False by (cbn; congruence). rewrite map_filter_delete.
  rewrite map_size_delete_Some with (m := filter _ T) (i := p).
  - assert (H : size (filter (fun k : nat * nat => k.2 = b) T) <> 0%nat); [|lia]. apply map_size_non_empty_iff. intros K.
    assert (L : filter (fun k : nat * nat => k.2 = b) T !! p = Some b) by (now apply map_filter_lookup_Some). rewrite K, lookup_empty in L. discriminate.
  - exists b. now apply map_filter_lookup_Some.
Qed.
Lemma count_zero : forall T b, count T b = 0%nat -> ~ exists_v T b.
Proof.
  intros T b Z (p & P). unfold count in Z. apply map_size_empty_inv in Z.
  assert (L : filter (fun k : nat * nat => k.2 = b) T !! p = Some b) by (now apply map_filter_lookup_Some). rewrite Z, lookup_empty in L. discriminate.
Qed.
Lemma relabel_insert : forall T p a b, a <> b -> T !! p = Some b -> relabel b a (<[p := a]> T) = relabel b a T.
Proof.
  intros T p a b D P. unfold relabel. rewrite fmap_insert. rewrite decide_False by exact D. apply insert_id. rewrite lookup_fmap, P. cbn. now rewrite decide_True.
Qed.
Lemma relabel_none : forall T a b, ~ exists_v T b -> relabel b a T = T.
Proof.
  intros T a b N. apply map_eq. intros p. unfold relabel. rewrite lookup_fmap. destruct (T !! p) as [v|] eqn:P; [|reflexivity]. cbn.
  rewrite decide_False; [reflexivity|]. intros ->. apply N. now exists p.
Qed.
Lemma relabel_exists : forall T a b v, exists_v (relabel b a T) v -> exists_v T v \/ v = a.
Proof.
  intros T a b v (p & P). unfold relabel in P. rewrite lookup_fmap in P. destruct (T !! p) as [u|] eqn:U; [|discriminate]. cbn in P. injection P as P.
  destruct (decide (u = b)); [right; congruence|left; subst; now exists p].
Qed.

Lemma steal_all : forall k h w a b tp, represents h w -> coherent w -> a <> b -> refers w !! tp = Some a -> count (refers w) b = k ->
  ok (Nat.iter k (steal b tp) (Some h)) (prune (set_refers w (relabel b a (refers w)))).
Proof.
  induction k as [|k IH]; intros h w a b tp R C D TP K.
  - exists h. split; [reflexivity|]. apply (same_rep h w _ R C). rewrite relabel_none by (now apply count_zero). destruct w as [wr ww wp wl wn].
    destruct (prune_same _ C) as (S1 & S2 & S3 & S4 & S5). unfold set_refers. cbn [refers watch where_ linked names].
    split; [|split; [|split; [|split]]]; try (symmetry; assumption); [reflexivity|]. intros u1 v1. symmetry. apply S5.
  - rewrite Nat.iter_succ_r. unfold steal at 2. cbn [mbind option_bind].
    assert (EB : exists_v (refers w) b).
    { destruct (decide (exists_v (refers w) b)) as [E|E]; [exact E|]. exfalso. assert (Z : count (refers w) b = 0%nat); [|lia]. unfold count. apply map_size_empty_iff. apply map_filter_empty_iff.
      intros p v P. cbn. intros ->. apply E. now exists p. }
    destruct (live h w b R EB) as [y Y]. rewrite Y. cbn [mbind option_bind].
    destruct (begin_some (trbl_ptrs y)) as (p & B & P).
    { destruct EB as (p & P). intros E. apply (rep_trbl h w R b y p Y) in P. rewrite E in P. set_solver. }
    rewrite B. cbn [mbind option_bind]. apply (rep_trbl h w R b y p Y) in P.
    destruct (assign_rep h w p tp b a R C P TP) as (h1 & E1 & R1 & C1). rewrite E1.
    destruct (IH h1 _ a b tp R1 C1 D) as (h2 & E2 & R2 & C2).
    + cbn. rewrite lookup_insert_ne; [exact TP|]. intros ->. congruence.
    + cbn. pose proof (count_insert (refers w) p a b D P). lia.
    + exists h2. split; [exact E2|]. apply (same_rep h2 _ _ R2 C2). cbn [refers prune set_refers].
      rewrite (relabel_insert (refers w) p a b D P). apply prune_prune. intros v V. rewrite <- (relabel_insert (refers w) p a b D P) in V.
      apply relabel_exists in V. destruct V as [V| ->]; [exact V|]. exists p. apply lookup_insert.
Qed.

(** ** Members that nobody else depends on *)
Lemma put_rep : forall h w v x y, represents h w -> coherent w -> hv h !! v = Some x -> trbl_ptrs y = trbl_ptrs x -> nont_ptrs y = nont_ptrs x -> neighbors y = neighbors x -> uses y = uses x ->
  represents (put h v y) (set_where w v (pos y)) /\ coherent (set_where w v (pos y)).
Proof.
  intros h w v x y R C X T N B U. split; [|destruct C; now constructor]. destruct R as [R1 R2 R3 R4 R5 R6 R7 R8 R9]. constructor; cbn; try assumption.
  - intros u. rewrite <- R4. destruct (decide (u = v)) as [->|D]; [rewrite lookup_insert, X; split; eauto|now rewrite lookup_insert_ne by congruence].
  - intros u z. destruct (decide (u = v)) as [->|D]; [rewrite lookup_insert; intros Z; now injection Z as <-|rewrite lookup_insert_ne by congruence; apply R5].
  - intros u z. destruct (decide (u = v)) as [->|D]; [rewrite lookup_insert; intros Z; injection Z as <-; rewrite U, T; now apply R6 with v|rewrite lookup_insert_ne by congruence; apply R6].
  - intros u z p. destruct (decide (u = v)) as [->|D]; [rewrite lookup_insert; intros Z; injection Z as <-; rewrite T; now apply R7|rewrite lookup_insert_ne by congruence; apply R7].
  - intros u z p. destruct (decide (u = v)) as [->|D]; [rewrite lookup_insert; intros Z; injection Z as <-; rewrite N; now apply R8|rewrite lookup_insert_ne by congruence; apply R8].
  - intros u z p. destruct (decide (u = v)) as [->|D]; [rewrite lookup_insert; intros Z; injection Z as <-; rewrite B; now apply R9|rewrite lookup_insert_ne by congruence; apply R9].
Qed.

Lemma eat_rep : forall h w a b, represents h w -> coherent w -> exists_v (refers w) a -> exists_v (refers w) b -> ok (eat a b h) (merge a b w).
Proof.
  intros h w a b R C EA EB. unfold eat, merge. destruct (decide (a = b)) as [->|D]; [now exists h|].
  destruct (live h w a R EA) as [x X]. destruct (live h w b R EB) as [y Y]. rewrite X. cbn [mbind option_bind]. rewrite Y. cbn [mbind option_bind].
  rewrite <- (count_size h w R a x X), <- (count_size h w R b y Y).
  set (m := INR (count (refers w) a)). set (n := INR (count (refers w) b)). set (x1 := set_pos x _).
  destruct (put_rep h w a x x1 R C X eq_refl eq_refl eq_refl eq_refl) as [R1 C1].
  assert (EL : Forall (exists_v (refers w)) (elements (neighbors y))).
  { apply Forall_forall. intros u U. apply elem_of_elements in U. apply (rep_nbs h w R b y u Y) in U. apply (coh_linked w C) in U. tauto. }
  destruct (links_rep a (elements (neighbors y)) (put h a x1) _ R1 C1 EA EL) as (h2 & E2 & R2 & C2). rewrite E2. cbn [mbind option_bind].
  destruct (live h2 _ a R2 EA) as [x2 X2]. rewrite X2. cbn [mbind option_bind].
  destruct (begin_some (trbl_ptrs x2)) as (tp & B & TP).
  { destruct EA as (p & P). intros E. apply (rep_trbl h2 _ R2 a x2 p X2) in P. rewrite E in P. set_solver. }
  rewrite B. cbn [mbind option_bind]. apply (rep_trbl h2 _ R2 a x2 tp X2) in TP.
  destruct (put_rep h2 _ a x2 (set_notes x2 (notes x2 ++ notes y)) R2 C2 X2 eq_refl eq_refl eq_refl eq_refl) as [R3 C3].
  destruct (steal_all (count (refers w) b) _ _ a b tp R3 C3 D TP eq_refl) as (h4 & E4 & R4 & C4). exists h4. split; [exact E4|].
  apply (same_rep h4 _ _ R4 C4). split; [reflexivity|]. split; [reflexivity|]. split; [reflexivity|]. split.
  - intros v i _. cbn. destruct (decide (v = a)) as [->|DV]; [|reflexivity]. rewrite (rep_pos h2 _ R2 a x2 X2). cbn. rewrite decide_True by reflexivity.
    rewrite (rep_pos h w R a x X), (rep_pos h w R b y Y). reflexivity.
  - intros u v. cbn. rewrite !elem_of_elements, !(rep_nbs h w R b y _ Y). tauto.
Qed.

(** ** Every operation *)
Ltac look R P t T TV := let x := fresh "x" in let X := fresh "X" in
  destruct (rep_tptr _ _ R _ _ P) as (t & T & TV).

Lemma fresh_handle : forall h w, represents h w -> coherent w -> ht h !! next h = None /\ refers w !! names w = None /\ hv h !! next h = None /\ watch w !! names w = None /\ ~ exists_v (refers w) (names w).
Proof.
  intros h w R C. assert (A : refers w !! names w = None). { destruct (refers w !! names w) as [v|] eqn:E; [|reflexivity]. apply (coh_names w C) in E. lia. }
  assert (N : ~ exists_v (refers w) (names w)). { intros (p & P). apply (coh_names w C) in P. lia. }
  repeat split; try assumption.
  - rewrite (rep_next h w R). destruct (ht h !! names w) as [t|] eqn:E; [|reflexivity]. rewrite <- (rep_refers h w R), lookup_fmap, E in A. discriminate.
  - rewrite (rep_next h w R). destruct (hv h !! names w) as [t|] eqn:E; [|reflexivity]. exfalso. apply N. apply (rep_live h w R). eauto.
  - destruct (watch w !! names w) as [t|] eqn:E; [|reflexivity]. assert (names w < names w)%nat; [|lia]. apply (coh_wnames w C). eauto.
Qed.

Lemma exists_insert_fresh : forall (T : gmap nat nat) a v u, T !! a = None -> exists_v (<[a := v]> T) u <-> exists_v T u \/ u = v.
Proof.
  intros T a v u A. split.
  - intros (p & P). destruct (decide (p = a)) as [->|D]; [rewrite lookup_insert in P; right; congruence|rewrite lookup_insert_ne in P by congruence; left; now exists p].
  - intros [(p & P)| ->]; [exists p; rewrite lookup_insert_ne; [exact P|congruence]|exists a; apply lookup_insert].
Qed.

Lemma new_rep : forall h w p m, represents h w -> coherent w -> ok (Some (t_new p m h)) (next_name (set_where (set_refers w (<[names w := names w]> (refers w))) (names w) p)).
Proof.
  intros h w p m R C. destruct (fresh_handle h w R C) as (F1 & F2 & F3 & F4 & F5). eexists. split; [reflexivity|]. pose proof R as R'. pose proof C as C'. 
  destruct R as [R1 R2 R3 R4 R5 R6 R7 R8 R9]. destruct C as [C1 C2 C3 C4]. unfold t_new. rewrite R3 in *. split.
  - constructor; cbn.
    + rewrite fmap_insert. now rewrite R1.
    + exact R2.
    + reflexivity.
    + intros v. rewrite exists_insert_fresh by exact F2. rewrite <- R4. destruct (decide (v = names w)) as [->|D]; [rewrite lookup_insert; split; eauto|rewrite lookup_insert_ne by congruence; tauto].
    + intros v x. destruct (decide (v = names w)) as [->|D]; [rewrite lookup_insert; intros Z; injection Z as <-; cbn; reflexivity|rewrite lookup_insert_ne by congruence; apply R5].
    + intros v x. destruct (decide (v = names w)) as [->|D]; [rewrite lookup_insert; intros Z; injection Z as <-; cbn; now rewrite size_singleton|rewrite lookup_insert_ne by congruence; apply R6].
    + intros v x q. destruct (decide (v = names w)) as [->|D].
      * rewrite lookup_insert. intros Z; injection Z as <-. cbn. rewrite elem_of_singleton. destruct (decide (q = names w)) as [->|Q]; [rewrite lookup_insert; tauto|rewrite lookup_insert_ne by congruence].
        split; [congruence|]. intros K. exfalso. apply F5. now exists q.
      * rewrite lookup_insert_ne by congruence. intros Z. rewrite (R7 v x q Z). destruct (decide (q = names w)) as [->|Q]; [rewrite lookup_insert; split; congruence|now rewrite lookup_insert_ne by congruence].
    + intros v x n. destruct (decide (v = names w)) as [->|D]; [|rewrite lookup_insert_ne by congruence; apply R8].
      rewrite lookup_insert. intros Z; injection Z as <-. cbn. split; [set_solver|]. intros K. exfalso. apply F5. now apply (C1 n).
    + intros v x u. destruct (decide (v = names w)) as [->|D]; [|rewrite lookup_insert_ne by congruence; apply R9].
      rewrite lookup_insert. intros Z; injection Z as <-. cbn. split; [set_solver|]. intros K. exfalso. apply F5. apply C2 in K. tauto.
  - constructor; cbn.
    + intros n v K. rewrite exists_insert_fresh by exact F2. left. now apply (C1 n).
    + intros u v K. rewrite !exists_insert_fresh by exact F2. apply C2 in K. tauto.
    + intros q v. destruct (decide (q = names w)) as [->|Q]; [rewrite lookup_insert; intros K; injection K as <-; lia|rewrite lookup_insert_ne by congruence; intros K; apply C3 in K; lia].
    + intros n K. apply C4 in K. lia.
Qed.

Lemma copy_rep : forall h w q v, represents h w -> coherent w -> refers w !! q = Some v -> ok (t_copy q h) (next_name (set_refers w (<[names w := v]> (refers w)))).
Proof.
  intros h w q v R C Q. destruct (fresh_handle h w R C) as (F1 & F2 & F3 & F4 & F5). destruct (rep_tptr h w R q v Q) as (t & T & TV). destruct (rep_vert h w R q v Q) as (x & X & PX).
  unfold t_copy. rewrite T. cbn [mbind option_bind]. rewrite TV, X. cbn [mbind option_bind]. eexists. split; [reflexivity|].
  destruct R as [R1 R2 R3 R4 R5 R6 R7 R8 R9]. destruct C as [C1 C2 C3 C4]. rewrite R3 in *.
  assert (EQ : forall u, exists_v (<[names w := v]> (refers w)) u <-> exists_v (refers w) u).
  { intros u. rewrite exists_insert_fresh by exact F2. split; [intros [K| ->]; [exact K|now exists q]|auto]. }
  split.
  - constructor; cbn.
    + rewrite fmap_insert. cbn. now rewrite R1.
    + exact R2.
    + reflexivity.
    + intros u. rewrite EQ, <- R4. destruct (decide (u = v)) as [->|D]; [rewrite lookup_insert, X; split; eauto|now rewrite lookup_insert_ne by congruence].
    + intros u z. destruct (decide (u = v)) as [->|D]; [rewrite lookup_insert; intros Z; injection Z as <-; cbn; now apply R5|rewrite lookup_insert_ne by congruence; apply R5].
    + intros u z. destruct (decide (u = v)) as [->|D]; [|rewrite lookup_insert_ne by congruence; apply R6]. rewrite lookup_insert; intros Z; injection Z as <-; cbn.
      rewrite size_union, size_singleton, (R6 v x X); [reflexivity|]. intros a A A'. apply elem_of_singleton in A. subst a. apply (R7 v x _ X) in A'. congruence.
    + intros u z p. destruct (decide (u = v)) as [->|D].
      * rewrite lookup_insert. intros Z; injection Z as <-. cbn. rewrite elem_of_union, elem_of_singleton, (R7 v x p X). destruct (decide (p = names w)) as [->|P]; [rewrite lookup_insert; tauto|rewrite lookup_insert_ne by congruence; tauto].
      * rewrite lookup_insert_ne by congruence. intros Z. rewrite (R7 u z p Z). destruct (decide (p = names w)) as [->|P]; [rewrite lookup_insert; split; congruence|now rewrite lookup_insert_ne by congruence].
    + intros u z n. destruct (decide (u = v)) as [->|D]; [rewrite lookup_insert; intros Z; injection Z as <-; cbn; now apply R8|rewrite lookup_insert_ne by congruence; apply R8].
    + intros u z n. destruct (decide (u = v)) as [->|D]; [rewrite lookup_insert; intros Z; injection Z as <-; cbn; now apply R9|rewrite lookup_insert_ne by congruence; apply R9].
  - constructor; cbn.
    + intros n u K. rewrite EQ. now apply (C1 n).
    + intros a b K. rewrite !EQ. now apply C2.
    + intros p u. destruct (decide (p = names w)) as [->|P]; [rewrite lookup_insert; intros K; injection K as <-; apply C3 in Q; lia|rewrite lookup_insert_ne by congruence; intros K; apply C3 in K; lia].
    + intros n K. apply C4 in K. lia.
Qed.

(** ** References that do not keep a vertex alive *)
(** the state after the entry of [n] has been changed to [t] *)
Lemma watch_rep : forall h w h' n t, represents h w -> coherent w -> ht h' = ht h ->
  (next h' = S (next h) /\ n = next h \/ next h' = next h /\ is_Some (watch w !! n)) ->
  hn h' = <[n := t]> (hn h) ->
  (forall v, t = Some v -> exists_v (refers w) v) ->
  (forall v, hv h !! v = None -> hv h' !! v = None) ->
  (forall v x, hv h !! v = Some x -> exists y, hv h' !! v = Some y /\ pos y = pos x /\ trbl_ptrs y = trbl_ptrs x /\ neighbors y = neighbors x /\ uses y = uses x /\
      nont_ptrs y = (if decide (t = Some v) then {[n]} ∪ nont_ptrs x else nont_ptrs x ∖ {[n]})) ->
  let w' := World (refers w) (<[n := t]> (watch w)) (where_ w) (linked w) (next h') in represents h' w' /\ coherent w'.
Proof.
  intros h w h' n t R C HT NX HN EX HV0 HV. cbn.
  assert (INV : forall v y, hv h' !! v = Some y -> exists x, hv h !! v = Some x /\ pos y = pos x /\ trbl_ptrs y = trbl_ptrs x /\ neighbors y = neighbors x /\ uses y = uses x /\
      nont_ptrs y = (if decide (t = Some v) then {[n]} ∪ nont_ptrs x else nont_ptrs x ∖ {[n]})).
  { intros v y Y. destruct (hv h !! v) as [x|] eqn:X; [|rewrite (HV0 v X) in Y; discriminate]. destruct (HV v x X) as (y' & Y' & K). exists x. split; [reflexivity|]. congruence. }
  split.
  - pose proof R as R'. destruct R as [R1 R2 R3 R4 R5 R6 R7 R8 R9]. constructor; cbn.
    + now rewrite HT.
    + now rewrite HN, R2.
    + reflexivity.
    + intros v. rewrite <- R4. split; intros [z Z].
      * destruct (INV v z Z) as (x & X & _). eauto.
      * destruct (HV v z Z) as (y & Y & _). eauto.
    + intros v y Y i. destruct (INV v y Y) as (x & X & P & _). rewrite P. now apply R5.
    + intros v y Y. destruct (INV v y Y) as (x & X & P & T & N & U & _). rewrite T, U. now apply R6 with v.
    + intros v y p Y. destruct (INV v y Y) as (x & X & P & T & N & U & _). rewrite T. now apply R7.
    + intros v y m Y. destruct (INV v y Y) as (x & X & P & T & N & U & K). rewrite K. destruct (decide (m = n)) as [->|D].
      * rewrite lookup_insert. destruct (decide (t = Some v)) as [->|E]; split; [reflexivity|set_solver|set_solver|congruence].
      * rewrite lookup_insert_ne by congruence. rewrite <- (R8 v x m X). destruct (decide (t = Some v)); set_solver.
    + intros v y u Y. destruct (INV v y Y) as (x & X & P & T & N & U & _). rewrite N. now apply R9.
  - assert (LE : names w <= next h') by (rewrite <- (rep_next h w R); lia). destruct C as [C1 C2 C3 C4]. constructor; cbn.
    + intros m v. destruct (decide (m = n)) as [->|D]; [rewrite lookup_insert; intros K; injection K as ->; now apply EX|rewrite lookup_insert_ne by congruence; apply C1].
    + exact C2.
    + intros p v K. apply C3 in K. lia.
    + intros m. destruct (decide (m = n)) as [->|D].
      * intros _. destruct NX as [[NX ->]|[NX S]]; [lia|]. apply C4 in S. lia.
      * rewrite lookup_insert_ne by congruence. intros K. apply C4 in K. lia.
Qed.

Lemma nullify_rep : forall h w n t, represents h w -> coherent w -> watch w !! n = Some t -> ok (nullify n h) (set_watch w (<[n := None]> (watch w))).
Proof.
  intros h w n t R C N. unfold nullify. rewrite (rep_watch h w R), N. cbn [mbind option_bind]. destruct t as [v|].
  - destruct (live h w v R) as [x X]; [now apply (coh_watch w C n)|]. rewrite X. cbn [mbind option_bind]. eexists. split; [reflexivity|].
    pose proof (watch_rep h w (set_hn (put h v (set_nont x (nont_ptrs x ∖ {[n]}))) (<[n := None]> (watch w))) n None R C) as H. cbn in H. rewrite (rep_next h w R) in H. apply H.
    + reflexivity.
    + right. split; [reflexivity|]. rewrite N. eauto.
    + now rewrite (rep_watch h w R).
    + intros u K. discriminate.
    + intros u U. rewrite lookup_insert_ne by congruence. exact U.
    + intros u z U. destruct (decide (u = v)) as [->|D].
      * rewrite lookup_insert. rewrite X in U. injection U as <-. eexists. split; [reflexivity|]. repeat split.
      * rewrite lookup_insert_ne by congruence. exists z. split; [exact U|]. rewrite decide_False by discriminate. repeat split. apply leibniz_equiv. intros a. rewrite elem_of_difference, elem_of_singleton.
        split; [|tauto]. intros A. split; [exact A|]. intros ->. apply (rep_nont h w R u z n U) in A. congruence.
  - exists h. split; [reflexivity|]. rewrite insert_id by exact N. destruct w. auto.
Qed.

Lemma insert_rep : forall h w n t, represents h w -> coherent w -> (exists v, t = Some v /\ exists_v (refers w) v) \/ t = None ->
  (n = names w \/ watch w !! n = Some None) ->
  ok (n_insert n t (Heap (hv h) (ht h) (<[n := t]> (hn h)) (if decide (n = names w) then S n else next h)))
     (World (refers w) (<[n := t]> (watch w)) (where_ w) (linked w) (if decide (n = names w) then S n else names w)).
Proof.
  intros h w n t R C T N.
  assert (FR : forall v x, hv h !! v = Some x -> n ∉ nont_ptrs x).
  { intros v x X I. apply (rep_nont h w R v x n X) in I. destruct N as [->|N]; [|congruence]. destruct (fresh_handle h w R C) as (_ & _ & _ & F & _). congruence. }
  assert (NX : forall m, m = (if decide (n = names w) then S n else next h) -> m = (if decide (n = names w) then S n else names w) /\ (m = S (next h) /\ n = next h \/ m = next h /\ is_Some (watch w !! n))).
  { intros m ->. rewrite (rep_next h w R). split; [reflexivity|]. destruct (decide (n = names w)) as [->|D]; [left; auto|right; split; [reflexivity|]]. destruct N as [N|N]; [contradiction|]. rewrite N. eauto. }
  destruct (NX _ eq_refl) as [NX1 NX2]. rewrite <- NX1. set (m := if decide (n = names w) then S n else next h) in *. clear NX.
  destruct T as [(v & -> & V)|T].
  - destruct (live h w v R V) as [x X]. cbn. rewrite X. cbn. eexists. split; [reflexivity|].
    apply (watch_rep h w (put (Heap (hv h) (ht h) (<[n:=Some v]> (hn h)) m) v (set_nont x ({[n]} ∪ nont_ptrs x))) n (Some v) R C); cbn.
    + reflexivity.
    + exact NX2.
    + reflexivity.
    + intros u K. now injection K as <-.
    + intros u U. rewrite lookup_insert_ne by congruence. exact U.
    + intros u z U. destruct (decide (u = v)) as [->|D].
      * rewrite lookup_insert. rewrite X in U. injection U as <-. eexists. split; [reflexivity|]. rewrite decide_True by reflexivity. repeat split.
      * rewrite lookup_insert_ne by congruence. exists z. split; [exact U|]. rewrite decide_False by congruence. repeat split. apply leibniz_equiv. pose proof (FR u z U). set_solver.
  - subst t. cbn. eexists. split; [reflexivity|]. apply (watch_rep h w (Heap (hv h) (ht h) (<[n:=None]> (hn h)) m) n None R C); cbn.
    + reflexivity.
    + exact NX2.
    + reflexivity.
    + intros u K. discriminate.
    + auto.
    + intros u z U. exists z. split; [exact U|]. repeat split. apply leibniz_equiv. pose proof (FR u z U). set_solver.
Qed.

Lemma watch_ok : forall w n t, coherent w -> watch w !! n = Some t -> (exists v, t = Some v /\ exists_v (refers w) v) \/ t = None.
Proof. intros w n [v|] C N; [left|now right]. exists v. split; [reflexivity|]. now apply (coh_watch w C n). Qed.

Lemma step_rep : forall o h w w', represents h w -> coherent w -> spec_step o w = Some w' -> ok (step o h) w'.
Proof.
  intros o h w w' R C S. destruct o; cbn [spec_step] in S; cbn [step].
  - injection S as <-. now apply new_rep.
  - apply bind_Some in S. destruct S as (v & Q & S). injection S as <-. now apply copy_rep.
  - apply bind_Some in S. destruct S as (v & Q & S). injection S as <-. now apply destroy_rep with v.
  - apply bind_Some in S. destruct S as (v & P & S). apply bind_Some in S. destruct S as (u & Q & S). injection S as <-. now apply assign_rep with v.
  - apply bind_Some in S. destruct S as (a & P & S). apply bind_Some in S. destruct S as (b & Q & S). injection S as <-.
    destruct (rep_tptr h w R p a P) as (t & T & TV). destruct (rep_tptr h w R q b Q) as (t' & T' & TV'). rewrite T. cbn [mbind option_bind]. rewrite T'. cbn [mbind option_bind]. rewrite TV, TV'.
    apply eat_rep; eauto; [now exists p|now exists q].
  - apply bind_Some in S. destruct S as (a & P & S). apply bind_Some in S. destruct S as (b & Q & S). injection S as <-.
    destruct (rep_tptr h w R p a P) as (t & T & TV). destruct (rep_tptr h w R q b Q) as (t' & T' & TV'). rewrite T. cbn [mbind option_bind]. rewrite T'. cbn [mbind option_bind]. rewrite TV, TV'.
    destruct (connect_rep h w a b R C) as (h1 & E1 & R1 & C1); [now exists p|now exists q|]. exists h1. split; [exact E1|]. apply (same_rep h1 _ _ R1 C1). destruct (decide (a = b)) as [->|D].
    + split; [reflexivity|]. split; [reflexivity|]. split; [reflexivity|]. split; [reflexivity|]. intros u v. cbn. rewrite !elem_of_list_singleton. split; [|tauto].
      intros [H|[H|H]]; [exact H| |]; destruct H as (-> & -> & H); contradiction.
    + split; [reflexivity|]. split; [reflexivity|]. split; [reflexivity|]. split; [reflexivity|]. intros u v. cbn. rewrite !elem_of_list_singleton.
      split; [tauto|]. intros [H|[[-> ->]|[-> ->]]]; auto.
  - apply bind_Some in S. destruct S as (a & P & S). injection S as <-. destruct (rep_tptr h w R p a P) as (t & T & TV). destruct (rep_vert h w R p a P) as (y & Y & _).
    rewrite T. cbn [mbind option_bind]. rewrite TV, Y. cbn [mbind option_bind]. eexists. split; [reflexivity|]. now apply put_rep with y.
  - apply bind_Some in S. destruct S as (a & P & S). injection S as <-. destruct (rep_tptr h w R p a P) as (t & T & TV). destruct (rep_vert h w R p a P) as (y & Y & _).
    rewrite T. cbn [mbind option_bind]. rewrite TV, Y. cbn [mbind option_bind]. eexists. split; [reflexivity|].
    destruct (put_rep h w a y (set_notes y r) R C Y eq_refl eq_refl eq_refl eq_refl) as [R1 C1]. apply (same_rep _ _ _ R1 C1). split; [reflexivity|]. split; [reflexivity|]. split; [reflexivity|].
    split; [|reflexivity]. intros v i _. cbn. destruct (decide (v = a)) as [->|D]; [|reflexivity]. now apply (rep_pos h w R).
  - apply bind_Some in S. destruct S as (v & P & S). injection S as <-. destruct (rep_tptr h w R p v P) as (t & T & TV). rewrite T. cbn [mbind option_bind]. eexists. split; [reflexivity|]. split; [|exact C].
    destruct R as [R1 R2 R3 R4 R5 R6 R7 R8 R9]. constructor; cbn; try assumption. rewrite fmap_insert. cbn. rewrite R1, TV. now apply insert_id.
  - apply bind_Some in S. destruct S as (v & P & S). injection S as <-. destruct (rep_tptr h w R p v P) as (t & T & TV). rewrite T. cbn [mbind option_bind]. eexists. split; [reflexivity|]. split; [|exact C].
    destruct R as [R1 R2 R3 R4 R5 R6 R7 R8 R9]. constructor; cbn; try assumption. rewrite fmap_insert. cbn. rewrite R1, TV. now apply insert_id.
  - apply bind_Some in S. destruct S as (v & P & S). injection S as <-. destruct (rep_tptr h w R p v P) as (t & T & TV). rewrite T. cbn [mbind option_bind]. rewrite TV.
    destruct (insert_rep h w (names w) (Some v) R C) as (h1 & E1 & R1 & C1); [left; exists v; split; [reflexivity|now exists p]|now left|].
    rewrite !decide_True in E1, R1, C1 by reflexivity. exists h1. split; [|now split]. rewrite <- E1. unfold n_new, n_insert. cbn. destruct (hv h !! v) as [x|]; [|reflexivity]. cbn. rewrite (rep_next h w R). reflexivity.
  - apply bind_Some in S. destruct S as (t & M & S). injection S as <-.
    destruct (insert_rep h w (names w) t R C) as (h1 & E1 & R1 & C1); [now apply watch_ok with m|now left|].
    rewrite !decide_True in E1, R1, C1 by reflexivity. exists h1. split; [|now split]. rewrite <- E1. unfold n_copy. rewrite (rep_watch h w R), M. cbn [mbind option_bind]. now rewrite (rep_next h w R).
  - apply bind_Some in S. destruct S as (t & N & S). injection S as <-. unfold n_destroy. destruct (nullify_rep h w n t R C N) as (h1 & E1 & R1 & C1). rewrite E1. cbn [mbind option_bind]. eexists. split; [reflexivity|].
    split.
    + destruct R1 as [Q1 Q2 Q3 Q4 Q5 Q6 Q7 Q8 Q9]. constructor; cbn; try assumption; cbn in Q2, Q8.
      * rewrite Q2. apply delete_insert_delete.
      * intros v x m X. rewrite (Q8 v x m X). destruct (decide (m = n)) as [->|D]; [rewrite lookup_insert, lookup_delete; split; congruence|now rewrite lookup_insert_ne, lookup_delete_ne by congruence].
    + destruct C as [D1 D2 D3 D4]. constructor; cbn; try assumption.
      * intros m v K. apply lookup_delete_Some in K. now apply (D1 m).
      * intros m [v K]. apply lookup_delete_Some in K. apply D4. exists v. tauto.
  - apply bind_Some in S. destruct S as (t & N & S). apply bind_Some in S. destruct S as (t' & M & S). injection S as <-. unfold n_assign.
    destruct (nullify_rep h w n t R C N) as (h1 & E1 & R1 & C1). rewrite E1. cbn [mbind option_bind]. rewrite (rep_watch _ _ R1). cbn [watch set_watch].
    assert (NN : n <> names w). { intros ->. destruct (fresh_handle h w R C) as (_ & _ & _ & F & _). congruence. }
    set (t1 := if decide (n = m) then None else t'). assert (T1 : <[n := None]> (watch w) !! m = Some t1).
    { unfold t1. destruct (decide (n = m)) as [->|D]; [apply lookup_insert|rewrite lookup_insert_ne by congruence; exact M]. }
    rewrite T1. cbn [mbind option_bind].
    destruct (insert_rep h1 _ n t1 R1 C1) as (h2 & E2 & R2 & C2).
    + now apply watch_ok with m.
    + right. cbn. apply lookup_insert.
    + cbn [names set_watch] in *. rewrite !decide_False in E2, R2, C2 by exact NN. exists h2. split; [|].
      * rewrite <- E2. rewrite (rep_watch _ _ R1). reflexivity.
      * cbn [refers watch set_watch where_ linked] in R2, C2. rewrite insert_insert in R2, C2. now split.
  - apply bind_Some in S. destruct S as (t & N & S). injection S as <-. now apply nullify_rep with t.
Qed.

Lemma run_none : forall {A} (f : op -> A -> option A) os, foldl (fun o a => w ← o; f a w) None os = None.
Proof. intros A f. induction os; [reflexivity|exact IHos]. Qed.
Lemma run_rep : forall os h w w', represents h w -> coherent w -> spec_run os w = Some w' -> ok (run os h) w'.
Proof.
  unfold spec_run, run. induction os as [|o os IH]; intros h w w' R C S.
  - cbn in S. injection S as <-. now exists h.
  - cbn [foldl mbind option_bind] in S |- *. destruct (spec_step o w) as [w1|] eqn:E; [|rewrite run_none in S; discriminate].
    destruct (step_rep o h w w1 R C E) as (h1 & E1 & R1 & C1). rewrite E1. now apply (IH h1 w1).
Qed.
Lemma empty_rep : represents empty_heap empty_world /\ coherent empty_world.
Proof.
  split; constructor; cbn.
  - apply fmap_empty.
  - reflexivity.
  - reflexivity.
  - intros v. split; [intros [x X]; rewrite lookup_empty in X; discriminate|intros (p & P); rewrite lookup_empty in P; discriminate].
  - intros v x X. rewrite lookup_empty in X; discriminate.
  - intros v x X. rewrite lookup_empty in X; discriminate.
  - intros v x p X. rewrite lookup_empty in X; discriminate.
  - intros v x p X. rewrite lookup_empty in X; discriminate.
  - intros v x p X. rewrite lookup_empty in X; discriminate.
  - intros n v X. rewrite lookup_empty in X; discriminate.
  - tauto.
  - intros p v X. rewrite lookup_empty in X; discriminate.
  - intros n [x X]. rewrite lookup_empty in X; discriminate.
Qed.
