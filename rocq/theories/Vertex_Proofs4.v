(** From runs that are defined to the specification. *)
From Coq Require Import Reals Lra Lia.
From stdpp Require Import gmap option list numbers fin_maps fin_sets.
From Verif Require Import Vertex_Model Vertex_Spec Vertex_Proofs Vertex_Proofs2 Vertex_Proofs3.

Lemma spec_defined : forall o w, is_Some (spec_step o w) <-> Forall (fun p => is_Some (refers w !! p)) (needs_t o) /\ Forall (fun n => is_Some (watch w !! n)) (needs_n o).
Proof.
  assert (H : forall {A} (m : gmap nat A) k (f : A -> option world), (forall a, is_Some (f a)) -> is_Some (m !! k ≫= f) <-> is_Some (m !! k)).
  { intros A m k f F. destruct (m !! k) as [a|]; cbn; [split; eauto|split; intros [x X]; discriminate]. }
  assert (H2 : forall {A B} (m : gmap nat A) k (m' : gmap nat B) k' (f : A -> B -> option world), (forall a b, is_Some (f a b)) -> is_Some (a ← m !! k; b ← m' !! k'; f a b) <-> is_Some (m !! k) /\ is_Some (m' !! k')).
  { intros A B m k m' k' f F. destruct (m !! k) as [a|]; cbn; [rewrite H by apply F; split; [intros X; split; [eauto|exact X]|tauto]|]. split; [intros [x X]; discriminate|intros [[x X] _]; discriminate]. }
  intros o w. destruct o; cbn [spec_step needs_t needs_n]; rewrite ?Forall_cons, ?Forall_nil;
    first [rewrite H2 by eauto|rewrite H by eauto|split; eauto]; try tauto.
Qed.
Lemma ht_refers : forall h w p, represents h w -> is_Some (ht h !! p) <-> is_Some (refers w !! p).
Proof. intros h w p R. rewrite <- (rep_refers h w R), lookup_fmap. destruct (ht h !! p); cbn; split; eauto; intros [x X]; discriminate. Qed.

Lemma step_needs : forall o h h', step o h = Some h' -> Forall (fun p => is_Some (ht h !! p)) (needs_t o) /\ Forall (fun n => is_Some (hn h !! n)) (needs_n o).
Proof.
  intros o h h' S. destruct o; cbn [step needs_t needs_n] in *; rewrite ?Forall_cons, ?Forall_nil.
  - auto.
  - unfold t_copy in S. apply bind_Some in S. destruct S as (t & T & _). rewrite T. repeat split; eauto.
  - unfold t_destroy in S. apply bind_Some in S. destruct S as (t & T & _). rewrite T. repeat split; eauto.
  - unfold t_assign in S. apply bind_Some in S. destruct S as (t & T & S). apply bind_Some in S. destruct S as (x & X & S). apply bind_Some in S. destruct S as (t' & T' & S). cbn in T'. rewrite T, T'. repeat split; eauto.
  - apply bind_Some in S. destruct S as (t & T & S). apply bind_Some in S. destruct S as (t' & T' & S). rewrite T, T'. repeat split; eauto.
  - apply bind_Some in S. destruct S as (t & T & S). apply bind_Some in S. destruct S as (t' & T' & S). rewrite T, T'. repeat split; eauto.
  - apply bind_Some in S. destruct S as (t & T & _). rewrite T. repeat split; eauto.
  - apply bind_Some in S. destruct S as (t & T & _). rewrite T. repeat split; eauto.
  - apply bind_Some in S. destruct S as (t & T & _). rewrite T. repeat split; eauto.
  - apply bind_Some in S. destruct S as (t & T & _). rewrite T. repeat split; eauto.
  - apply bind_Some in S. destruct S as (t & T & _). rewrite T. repeat split; eauto.
  - unfold n_copy in S. apply bind_Some in S. destruct S as (t & T & _). rewrite T. repeat split; eauto.
  - unfold n_destroy, nullify in S. apply bind_Some in S. destruct S as (h1 & T & _). apply bind_Some in T. destruct T as (t & T & _). rewrite T. repeat split; eauto.
  - unfold n_assign, nullify in S. apply bind_Some in S. destruct S as (h1 & T & S). apply bind_Some in T. destruct T as (t & T & K). rewrite T.
    apply bind_Some in S. destruct S as (t' & T' & _). split; [auto|]. split; [eauto|]. split; [|auto]. destruct t as [v|].
    + apply bind_Some in K. destruct K as (x & X & K). injection K as <-. cbn in T'. apply lookup_insert_Some in T'. destruct T' as [[-> _]|[_ T']]; rewrite ?T, ?T'; eauto.
    + injection K as <-. rewrite T'. eauto.
  - unfold nullify in S. apply bind_Some in S. destruct S as (t & T & _). rewrite T. repeat split; eauto.
Qed.
Lemma step_spec : forall o h w, represents h w -> coherent w -> is_Some (step o h) <-> is_Some (spec_step o w).
Proof.
  intros o h w R C. split.
  - intros [h' S]. apply spec_defined. destruct (step_needs o h h' S) as [A B]. split.
    + eapply Forall_impl; [exact A|]. intros p P. now apply (ht_refers h w p R).
    + rewrite <- (rep_watch h w R). exact B.
  - intros [w' S]. destruct (step_rep o h w w' R C S) as (h' & E & _). eauto.
Qed.

Lemma run_spec : forall os h w h', represents h w -> coherent w -> run os h = Some h' -> exists w', spec_run os w = Some w' /\ represents h' w' /\ coherent w'.
Proof.
  unfold spec_run, run. induction os as [|o os IH]; intros h w h' R C S.
  - cbn in S. injection S as <-. now exists w.
  - cbn [foldl mbind option_bind] in S |- *. destruct (step o h) as [h1|] eqn:E; [|rewrite run_none in S; discriminate].
    destruct (proj1 (step_spec o h w R C)) as [w1 W1]; [eauto|]. destruct (step_rep o h w w1 R C W1) as (h1' & E' & R1 & C1). assert (h1' = h1) by congruence. subst h1'. rewrite W1. now apply (IH h1).
Qed.
Lemma run_app : forall os os' h, run (os ++ os') h = h1 ← run os h; run os' h1.
Proof.
  intros os os' h. unfold run. rewrite foldl_app. destruct (foldl _ (Some h) os) as [h1|]; [reflexivity|]. cbn. apply run_none.
Qed.
Lemma reachable_rep : forall h, reachable h -> exists w, represents h w /\ coherent w.
Proof.
  intros h (os & E). destruct empty_rep as [R C]. destruct (run_spec os _ _ h R C E) as (w & _ & R' & C'). eauto.
Qed.

Lemma watch_step : forall o n w w' v, coherent w -> ~ resets n o -> spec_step o w = Some w' -> watch w !! n = Some (Some v) -> watch w' !! n = Some (if decide (exists_v (refers w') v) then Some v else None).
Proof.
  intros o n w w' v C NR S N. pose proof (coh_watch w C n v N) as EV. assert (LN : n <> names w). { intros ->. assert (names w < names w)%nat; [|lia]. apply (coh_wnames w C). eauto. }
  assert (FR : refers w !! names w = None). { destruct (refers w !! names w) as [u|] eqn:K; [|reflexivity]. apply (coh_names w C) in K. lia. }
  destruct o; cbn [spec_step resets] in S, NR; try (apply bind_Some in S; destruct S as (a & A & S)); try (apply bind_Some in S; destruct S as (b & BB & S)); injection S as <-; cbn [watch refers next_name set_where set_refers set_watch prune].
  - rewrite decide_True; [exact N|]. apply exists_insert_fresh; auto.
  - rewrite decide_True; [exact N|]. apply exists_insert_fresh; auto.
  - rewrite lookup_fmap, N. reflexivity.
  - rewrite lookup_fmap, N. reflexivity.
  - unfold merge. destruct (decide (a = b)); [now rewrite decide_True|]. cbn. rewrite lookup_fmap, N. reflexivity.
  - destruct (decide (a = b)); cbn; now rewrite decide_True.
  - now rewrite decide_True.
  - now rewrite decide_True.
  - now rewrite decide_True.
  - now rewrite decide_True.
  - rewrite lookup_insert_ne by congruence. now rewrite decide_True.
  - rewrite lookup_insert_ne by congruence. now rewrite decide_True.
  - rewrite lookup_delete_ne by congruence. now rewrite decide_True.
  - rewrite lookup_insert_ne by congruence. now rewrite decide_True.
  - rewrite lookup_insert_ne by congruence. now rewrite decide_True.
Qed.
