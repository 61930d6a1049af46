(** Theorems about thermodynamic admissibility. *)
From Coq Require Import Reals List Arith Lia Lra Bool.
From Verif Require Import Outcome Loop Admis_Model Admis_Spec Admis_Proofs.
From Verif Require RSum Tensor_Spec Artvisc_Model Artvisc_Proofs Filter_Proofs Vertex_Model Vertex_Spec Vertex_Proofs2 Vertex_Proofs3 Vertex_Thm.
From stdpp Require base gmap.
Import ListNotations.
Local Open Scope R_scope.

(** C114. [thermo::admissible] is true exactly if all values are finite and densities and energies are positive; it throws exactly if some
    value is not finite. *)
Theorem admis_check : forall data nd n,
  (admissible data nd n = Ok true <-> good nd n data) /\ (admissible data nd n = Ok false <-> all_finite nd n data /\ ~ good nd n data) /\
  (admissible data nd n = Throw <-> ~ all_finite nd n data).
Proof.
  intros data nd n. pose proof (admissible_spec data nd n) as S. destruct (admissible data nd n) as [b| | |]; [|..]; try contradiction.
  - destruct S as [F S]. destruct b; (split; [|split]); split; intros H; try discriminate; try reflexivity; try (now apply S); try (destruct (H F)).
    + destruct H as [_ H]. destruct (H (proj1 S eq_refl)).
    + apply S in H. discriminate.
    + split; [exact F|]. intros G. apply S in G. discriminate.
  - split; [|split]; split; intros H; try discriminate; try reflexivity; try exact S; exfalso; apply S; apply H.
Qed.
Print Assumptions admis_check.

(** C114. [is_admissible] is true exactly if the data in all elements, on all their faces and on all fine faces are so; the records are 1 in
    exactly the elements that are not; it throws only if there is a value that is not finite. *)
Theorem admis_flow : forall nd rs elems refs, (1 <= nd)%nat -> (1 <= rs)%nat ->
  match is_admissible nd rs elems refs with
  | Ok (b, records) =>
    (b = true <-> (forall e, In e elems -> good_element nd rs e) /\ (forall r, In r refs -> good_refined nd rs r)) /\
    Forall2 (fun e r => r = 0%nat /\ good_element nd rs e \/ r = 1%nat /\ ~ good_element nd rs e) elems records
  | Throw => not_finite nd rs elems refs
  | _ => False
  end.
Proof.
  intros nd rs elems refs ND RS. unfold is_admissible. pose proof (elements_spec nd rs ND RS elems) as E.
  destruct (ofold _ elems (true, [])) as [[a records]| | |]; cbn [bind]; [|now left|contradiction..].
  pose proof (refined_spec nd rs ND RS refs true) as F. destruct (ofold _ refs true) as [b| | |]; cbn [bind]; [|now right|contradiction..].
  destruct E as [E R]. split; [|exact R]. rewrite andb_true_iff, E, F. tauto.
Qed.
Print Assumptions admis_flow.
Theorem admis_admitted : forall nd rs elems refs, (1 <= nd)%nat -> (1 <= rs)%nat -> (forall e, In e elems -> good_element nd rs e) -> (forall r, In r refs -> good_refined nd rs r) ->
  is_admissible nd rs elems refs = Ok (true, map (fun _ => 0%nat) elems).
Proof.
  intros nd rs elems refs ND RS E R. pose proof (admis_flow nd rs elems refs ND RS) as F. destruct (is_admissible nd rs elems refs) as [[b records]| | |]; [|exfalso|contradiction..].
  - destruct F as [B F]. assert (b = true) by (apply B; split; assumption). subst b. do 2 f_equal. clear -F E. induction F as [|e r l l' H _ IH]; [reflexivity|]. cbn [map]. rewrite <- IH by (intros x X; apply E; now right).
    destruct H as [[-> _]|[_ H]]; [reflexivity|]. destruct H. apply E. now left.
  - destruct F as [(e & n & data & I & B & N)|(r & i & I & B & N)]; apply N; [exact (proj1 (E e I n data B))|exact (proj1 (R r I i B))].
Qed.
Print Assumptions admis_admitted.

(** C115. An admissible flow is not altered, and nothing is if the scheme is switched off. *)
Theorem admis_unchanged : forall flow admis coefs smear limit (s : solver flow) on, (1 <= limit)%nat -> on = false \/ admis (the_flow s) = Ok true ->
  fix_admissibility admis coefs smear limit on s = Ok (false, s, 0%nat).
Proof.
  intros flow admis coefs smear limit s on L [->|A]; [reflexivity|]. destruct on; [|reflexivity]. unfold fix_admissibility. cbn [negb fix_loop]. destruct (Nat.ltb_spec 0 limit); [|lia]. rewrite A. reflexivity.
Qed.
Print Assumptions admis_unchanged.

(** C115. Otherwise the flow is smeared until the last half of the states reached have been admissible: the number of steps is [2 i] for the
    least [i] such that the states [i] ... [2 i - 1] are admissible, if [2 i] is not above the limit; what is counted is one less. *)
Theorem admis_runs : forall flow admis coefs smear limit (s : solver flow), admis (the_flow s) = Ok false ->
  let states k := Nat.iter k (iteration coefs smear) s in
  let adm := fun x => admis (the_flow x) in
  (forall fixed s' n, fix_admissibility admis coefs smear limit true s = Ok (fixed, s', n) ->
    exists i, settled adm states i /\ (forall j, settled adm states j -> (i <= j)%nat) /\ (2 * i <= limit)%nat /\ s' = states (2 * i)%nat /\ fixed = true /\ n = (2 * i - 1)%nat) /\
  (forall i, settled adm states i -> (2 * i <= limit)%nat -> (forall k, (k < 2 * i)%nat -> exists b, adm (states k) = Ok b) ->
    exists r, fix_admissibility admis coefs smear limit true s = Ok r).
Proof.
  intros flow admis coefs smear limit s A states adm. unfold fix_admissibility. cbn [negb].
  assert (V : inv admis coefs smear s 0 None). { split; [now left|]. intros j J [K _]. lia. }
  pose proof (loop_spec admis coefs smear limit s A (S (S limit)) 0 None ltac:(lia) ltac:(lia) V) as L. change (Nat.iter 0 (iteration coefs smear) s) with s in L.
  destruct (fix_loop admis coefs smear limit (S (S limit)) 0 None s) as [[it s']| | |]; cbn [bind].
  - destruct L as (i & S & I & M & -> & ->). split; [|intros; eexists; reflexivity]. intros fixed s' n E. injection E as <- <- <-. exists i. split; [exact S|]. split.
    { intros j J. destruct (Nat.le_gt_cases i j) as [|G]; [assumption|]. destruct (M j G J). }
    split; [exact I|]. split; [reflexivity|]. split; [|reflexivity]. destruct S as [S _]. apply negb_true_iff, Nat.eqb_neq. lia.
  - split; [discriminate|]. intros i S I B. destruct (L i S I B).
  - split; [discriminate|]. intros i S I B. destruct (L i S I B).
  - split; [discriminate|]. intros i S I B. destruct (L i S I B).
Qed.
Print Assumptions admis_runs.

(** C115. So, if smearing keeps admissible flows admissible, the flow that is returned is admissible, and the loop ends if the flow becomes
    admissible in at most half of the iterations allowed. *)
Theorem admis_fixed : forall flow admis coefs smear limit (s : solver flow), (1 <= limit)%nat ->
  (forall f b l, admis f = Ok true -> admis (smear f b l) = Ok true) ->
  (forall fixed s' n, fix_admissibility admis coefs smear limit true s = Ok (fixed, s', n) -> (exists b, admis (the_flow s) = Ok b) -> admis (the_flow s') = Ok true) /\
  (forall i, (1 <= i)%nat -> (2 * i <= limit)%nat -> (forall k, (k < i)%nat -> admis (the_flow (Nat.iter k (iteration coefs smear) s)) = Ok false) ->
    admis (the_flow (Nat.iter i (iteration coefs smear) s)) = Ok true ->
    fix_admissibility admis coefs smear limit true s = Ok (true, Nat.iter (2 * i) (iteration coefs smear) s, (2 * i - 1)%nat)).
Proof.
  intros flow admis coefs smear limit s LIM P.
  assert (K : forall k j, admis (the_flow (Nat.iter k (iteration coefs smear) s)) = Ok true -> admis (the_flow (Nat.iter (j + k) (iteration coefs smear) s)) = Ok true).
  { intros k j A. induction j as [|j IH]; [exact A|]. cbn [Nat.add Nat.iter nat_rect]. cbn. apply P, IH. }
  split.
  - intros fixed s' n E [[|] B].
    + rewrite (admis_unchanged _ _ _ _ _ _ true LIM (or_intror B)) in E. injection E as _ <- _. exact B.
    + destruct (admis_runs flow admis coefs smear limit s B) as [H _]. destruct (H _ _ _ E) as (i & [I S] & _ & _ & -> & _). replace (2 * i)%nat with (1 + (2 * i - 1))%nat by lia. apply K, S. lia.
  - intros i I L B A. destruct (admis_runs flow admis coefs smear limit s (B 0%nat ltac:(lia))) as [H1 H2].
    assert (S : settled (fun x => admis (the_flow x)) (fun k => Nat.iter k (iteration coefs smear) s) i). { split; [exact I|]. intros k R. replace k with ((k - i) + i)%nat by lia. apply K, A. }
    destruct (H2 i S L) as [[[fixed s'] n] E].
    { intros k R. destruct (Nat.le_gt_cases i k); [|exists false; apply B; assumption]. exists true. apply S. lia. }
    rewrite E. destruct (H1 _ _ _ E) as (j & [J SJ] & M & _ & -> & -> & ->). assert (j <= i)%nat by (apply M, S). assert (j = i); [|subst; reflexivity].
    destruct (Nat.eq_dec j i); [assumption|]. specialize (SJ j ltac:(lia)). cbv beta in SJ. rewrite (B j ltac:(lia)) in SJ. discriminate.
Qed.
Print Assumptions admis_fixed.

(** C116. The bulk viscosity is kept. *)
Theorem admis_viscosity_partial : forall flow admis coefs smear limit (s : solver flow) on fixed s' n,
  fix_admissibility admis coefs smear limit on s = Ok (fixed, s', n) -> (1 <= limit)%nat -> (exists b, admis (the_flow s) = Ok b) ->
  bulk_av s' = bulk_av s /\ (fixed = false -> s' = s).
Proof.
  intros flow admis coefs smear limit s on fixed s' n E L [b B]. destruct on; [|injection E as <- <- <-; auto]. destruct b.
  - rewrite (admis_unchanged _ _ _ _ _ _ true L (or_intror B)) in E. injection E as <- <- <-. auto.
  - destruct (admis_runs flow admis coefs smear limit s B) as [H _]. destruct (H _ _ _ E) as (i & _ & _ & _ & -> & -> & _). split; [apply iter_bulk|discriminate].
Qed.
Print Assumptions admis_viscosity_partial.
(** The Laplacian viscosity is lost if anything was smeared: the result does not depend on it; it is replaced by the coefficients. Full
    statement: [bulk_av s' = bulk_av s /\ laplacian_av s' = laplacian_av s]. *)
Theorem admis_laplacian_lost : forall flow admis coefs smear limit (s : solver flow) l, admis (the_flow s) = Ok false ->
  fix_admissibility admis coefs smear limit true s = fix_admissibility admis coefs smear limit true {| the_flow := the_flow s; bulk_av := bulk_av s; laplacian_av := l |} /\
  forall fixed s' n, fix_admissibility admis coefs smear limit true s = Ok (fixed, s', n) -> exists f, laplacian_av s' = coefs f.
Proof.
  intros flow admis coefs smear limit s l A. split.
  - unfold fix_admissibility. cbn [negb fix_loop the_flow]. destruct (0 <? limit)%nat; [|reflexivity]. rewrite A. cbn [bind]. reflexivity.
  - intros fixed s' n E. destruct (admis_runs flow admis coefs smear limit s A) as [H _]. destruct (H _ _ _ E) as (i & [I _] & _ & _ & -> & _). replace (2 * i)%nat with (S (2 * i - 1)) by lia. cbn. eexists. reflexivity.
Qed.
Print Assumptions admis_laplacian_lost.

(** Examples *)
(** one point in one dimension: momentum 3, density 2, energy as given *)
Definition ex_gas (e : double) (k : nat) : double := match k with 0%nat => Fin 3 | 1%nat => Fin 2 | _ => e end.
Lemma ex_finite e : finite e -> all_finite 1 1 (ex_gas e).
Proof. intros [r ->] [|[|[|k]]] K; [exists 3|exists 2|exists r|lia]; reflexivity. Qed.
Example admis_check_example : admissible (ex_gas (Fin 9)) 1 1 = Ok true /\ admissible (ex_gas (Fin (-1))) 1 1 = Ok false /\ admissible (ex_gas Nan) 1 1 = Throw.
Proof. repeat split; repeat (cbn; destruct (Rlt_dec _ _); try lra); reflexivity. Qed.
(** the pressure is negative, yet the flow is called admissible: the kinetic energy 9/4 is more than the energy 1 *)
Example admis_check_pressure : admissible (ex_gas (Fin 1)) 1 1 = Ok true /\ (1 - 3 * 3 / (2 * 2) < 0).
Proof. split; [cbn; repeat (destruct (Rlt_dec _ _); try lra); reflexivity|lra]. Qed.
Definition ex_elem (e : double) : element := {| state := ex_gas (Fin 9); face := fun i => ex_gas (if (i =? 1)%nat then e else Fin 9) |}.
(** the second face of the second element has negative energy; a NaN in a fine face is found, but not if a face before it is bad *)
Example admis_flow_example : is_admissible 1 1 [ex_elem (Fin 9); ex_elem (Fin (-1))] [] = Ok (false, [0%nat; 1%nat]) /\
  is_admissible 1 1 [] [{| stretch := fun _ => false; fine := fun _ => ex_gas Nan |}] = Throw /\
  is_admissible 1 1 [] [{| stretch := fun _ => false; fine := fun _ => ex_gas (Fin (-1)) |}; {| stretch := fun _ => false; fine := fun _ => ex_gas Nan |}] = Ok (false, []).
Proof.
  destruct admis_check_example as (A & B & C).
  assert (CE : forall e, check_element 1 1 (ex_elem e) = admissible (ex_gas e) 1 1). { intros e. unfold check_element. cbn [ex_elem state]. change (nq 1 1) with 1%nat. rewrite A. change (1 / 1)%nat with 1%nat. change (seq 0 (1 * 2)) with [0; 1]%nat. cbn [bind ofold]. change (face (ex_elem e) 0) with (ex_gas (Fin 9)). change (face (ex_elem e) 1) with (ex_gas e). rewrite A. cbn [bind]. now destruct (admissible (ex_gas e) 1 1). }
  unfold is_admissible. cbn [ofold]. rewrite !CE, A, B. change (nq 1 1 / 1)%nat with 1%nat. split; [reflexivity|].
  unfold n_fine. cbn [Nat.sub seq fold_left]. change (2 ^ 1 / 2)%nat with 1%nat. cbn [seq ofold fine bind]. rewrite B, C. split; reflexivity.
Qed.
(** the flow is a number of bad points of which each step repairs one: with 3, states 3, 4, 5 are admissible, 6 steps are made and 5 counted *)
Definition ex_admis (f : nat) : outcome bool := Ok (f =? 0)%nat.
Definition ex_solver (f : nat) : solver nat := {| the_flow := f; bulk_av := fun _ => 5; laplacian_av := fun _ => 7 |}.
Example admis_fixed_example : exists s', fix_admissibility ex_admis (fun _ _ => 1) (fun f _ _ => pred f) 100 true (ex_solver 3) = Ok (true, s', 5%nat) /\ the_flow s' = 0%nat.
Proof. eexists. split; vm_compute; reflexivity. Qed.
(** the last state is not checked: here only state 1 is admissible *)
Example admis_runs_example : exists s', fix_admissibility ex_admis (fun _ _ => 1) (fun f _ _ => match f with 1 => 0 | _ => 2 end%nat) 100 true (ex_solver 1) = Ok (true, s', 1%nat) /\ ex_admis (the_flow s') = Ok false.
Proof. eexists. split; vm_compute; reflexivity. Qed.
(** not enough iterations allowed, although the flow becomes admissible *)
Example admis_limit_example : fix_admissibility ex_admis (fun _ _ => 1) (fun f _ _ => pred f) 5 true (ex_solver 3) = Throw.
Proof. reflexivity. Qed.
Theorem admis_viscosity_refuted : ~ (forall flow admis coefs smear limit (s : solver flow) on fixed s' n,
  fix_admissibility admis coefs smear limit on s = Ok (fixed, s', n) -> (1 <= limit)%nat -> (exists b, admis (the_flow s) = Ok b) ->
  bulk_av s' = bulk_av s /\ laplacian_av s' = laplacian_av s).
Proof.
  intros H. destruct (H nat ex_admis (fun _ _ => 1) (fun f _ _ => pred f) 100%nat (ex_solver 3) true true
    (Nat.iter 6 (iteration (fun _ _ => 1) (fun f _ _ => pred f)) (ex_solver 3)) 5%nat) as [_ K]; [reflexivity|lia|exists false; reflexivity|].
  apply (f_equal (fun g => g 0%nat)) in K. cbn in K. lra.
Qed.
Print Assumptions admis_viscosity_refuted.

(** C115. The coefficients of the smearing are between 0 and 1; they are 1 in every element that is not admissible and in those that touch it,
    and 0 in those that do not touch any element that touches one; in any order of the parallel loops. *)
Import base gmap.
Local Open Scope R_scope.
Definition touch (els : Vertex_Model.mesh) (w : Vertex_Spec.world) (e e' : nat) : Prop := exists i i' v, Vertex_Spec.touches els w e i v /\ Vertex_Spec.touches els w e' i' v.
Lemma max_fac_spec nv d e : 0 <= max_fac nv d e /\ (forall i a, (i < nv)%nat -> d !! (e, i) = Some a -> a <= max_fac nv d e) /\
  forall b, 0 <= b -> (forall i a, (i < nv)%nat -> d !! (e, i) = Some a -> a <= b) -> max_fac nv d e <= b.
Proof.
  unfold max_fac. assert (SE : forall n, seq 0 (S n) = seq 0 n ++ [n]) by (intros n; rewrite <- Nat.add_1_r, seq_app; reflexivity).
  induction nv as [|n (A & B & C)]; [cbn; split; [lra|split; [intros; lia|auto]]|]. rewrite SE, fold_left_app. cbn [fold_left]. set (m := fold_left _ _ _) in *. split; [|split].
  - eapply Rle_trans; [exact A|apply Rmax_l].
  - intros i a I D. destruct (Nat.eq_dec i n) as [->|]; [rewrite D; cbn; apply Rmax_r|]. eapply Rle_trans; [apply (B i a ltac:(lia) D)|apply Rmax_l].
  - intros b B0 H. apply Rmax_lub; [apply C; [exact B0|]; intros i a I; apply H; lia|]. destruct (d !! (e, n)) eqn:D; cbn; [apply (H n _ ltac:(lia) D)|exact B0].
Qed.
Theorem admis_coefs : forall os w h els nd (record : nat -> nat) order0 order1 order2 order3 d, Vertex_Spec.spec_run os Vertex_Spec.empty_world = Some w -> Vertex_Model.run os Vertex_Model.empty_heap = Some h -> Vertex_Spec.owns_handles els w ->
  (forall k, k ∈ order0 <-> exists p, Vertex_Spec.place els k p) -> (forall k, k ∈ order1 <-> exists p, Vertex_Spec.place els k p) ->
  (forall k, k ∈ order2 <-> exists p, Vertex_Spec.place els k p) -> (forall k, k ∈ order3 <-> exists p, Vertex_Spec.place els k p) ->
  (forall e, record e = 0%nat \/ record e = 1%nat) -> (1 <= nd)%nat -> (forall e l, els !! e = Some l -> length l = (2 ^ nd)%nat) ->
  exists d', fix_coefs els (2 ^ nd) record order0 order1 order2 order3 h d = Some d' /\
  forall e rs (node : nat -> R), (0 < rs)%nat -> (forall i, (i < rs)%nat -> 0 <= node i <= 1) -> is_Some (els !! e) ->
  exists vert r, (forall i, (i < 2 ^ nd)%nat -> d' !! (e, i) = Some (vert i)) /\ Artvisc_Model.vertices_to_qpoints nd rs node vert = Ok r /\
  forall q, (q < rs ^ nd)%nat -> 0 <= r q <= 1 /\
    ((exists e', touch els w e e' /\ record e' = 1%nat) -> r q = 1) /\
    ((forall e' e'', touch els w e e' -> touch els w e' e'' -> record e'' = 0%nat) -> r q = 0).
Proof.
  intros os w h els nd record order0 order1 order2 order3 d S E O O0 O1 O2 O3 RE ND NV.
  destruct Vertex_Proofs2.empty_rep as [R0 C0]. destruct (Vertex_Proofs2.run_rep os _ _ w R0 C0 S) as (h1 & E1 & R & C). assert (h1 = h) by congruence. subst h1.
  destruct (Vertex_Proofs3.share_rep els (fun e _ => INR (record e)) Vertex_Model.vector_max order0 order1 h w d R C O O0 O1) as (h1 & d1 & S1 & R1 & V1).
  destruct (Vertex_Proofs3.share_rep els (fun e _ => max_fac (2 ^ nd) d1 e) Vertex_Model.vector_max order2 order3 h1 w d1 R1 C O O2 O3) as (h2 & d2 & S2 & _ & V2).
  exists d2. split; [unfold fix_coefs; rewrite S1, S2; reflexivity|]. intros e rs node RS NO EE.
  assert (ALL : forall e l i, els !! e = Some l -> (i < 2 ^ nd)%nat -> exists v, Vertex_Spec.touches els w e i v).
  { intros e0 l i L I. rewrite <- (NV e0 l L) in I. destruct (lookup_lt_is_Some_2 l i I) as [p P]. destruct (Vertex_Spec.own_live _ _ O (e0, i) p) as [v V]; [exists l; split; [exact L|exact P]|]. exists v, l, p. auto. }
  assert (TE : forall i, (i < 2 ^ nd)%nat -> exists v, Vertex_Spec.touches els w e i v) by (destruct EE as [l L]; intros i I; exact (ALL e l i L I)).
  assert (IN : forall e0 i v, Vertex_Spec.touches els w e0 i v -> (i < 2 ^ nd)%nat). { intros e0 i v (l & p & L & P & _). rewrite <- (NV e0 l L). apply lookup_lt_Some with p. exact P. }
  assert (G1 : forall e i v, Vertex_Spec.touches els w e i v -> exists m, d1 !! (e, i) = Some m /\ (exists e' i', Vertex_Spec.touches els w e' i' v /\ m = INR (record e')) /\ forall e' i', Vertex_Spec.touches els w e' i' v -> INR (record e') <= m).
  { intros e0 i v T. destruct (V1 (e0, i) v T) as (l & D & NE & I). exists (Vertex_Model.vector_max l). split; [exact D|]. destruct (Vertex_Proofs3.vector_max_greatest l NE) as [A B]. split; [now apply I|]. intros e' i' T'. apply B, I. eauto. }
  assert (G2 : forall e i v, Vertex_Spec.touches els w e i v -> exists m, d2 !! (e, i) = Some m /\ (exists e' i', Vertex_Spec.touches els w e' i' v /\ m = max_fac (2 ^ nd) d1 e') /\ forall e' i', Vertex_Spec.touches els w e' i' v -> max_fac (2 ^ nd) d1 e' <= m).
  { intros e0 i v T. destruct (V2 (e0, i) v T) as (l & D & NE & I). exists (Vertex_Model.vector_max l). split; [exact D|]. destruct (Vertex_Proofs3.vector_max_greatest l NE) as [A B]. split; [now apply I|]. intros e' i' T'. apply B, I. eauto. }
  assert (RB : forall e, 0 <= INR (record e) <= 1) by (intros e0; destruct (RE e0) as [->| ->]; cbn; lra).
  assert (MX : forall e0 b, (exists i v, Vertex_Spec.touches els w e0 i v) -> 0 <= b -> (forall e', touch els w e0 e' -> INR (record e') <= b) -> max_fac (2 ^ nd) d1 e0 <= b).
  { intros e0 b (i0 & v0 & l & p & L & _) B0 B. apply max_fac_spec; [exact B0|]. intros i a I D. destruct (ALL e0 l i L I) as [v T]. destruct (G1 e0 i v T) as (m & D' & (e' & i' & T' & ->) & _).
    assert (a = INR (record e')) by congruence. subst a. apply B. exists i, i', v. auto. }
  exists (fun i => default 0 (d2 !! (e, i))).
  destruct (Artvisc_Proofs.vertices_eq nd rs node (fun i => default 0 (d2 !! (e, i))) ND RS) as (r & ER & H). exists r.
  split. { intros i I. destruct (TE i I) as [v T]. destruct (G2 e i v T) as (m & -> & _). reflexivity. }
  split; [exact ER|]. intros q Q. rewrite (H q Q).
  assert (K : forall k, (k < nd)%nat -> 0 <= node (Tensor_Spec.digit rs nd k q) <= 1) by (intros k _; apply NO, Filter_Proofs.digit_lt, RS).
  assert (RANGE : forall a b, (forall i m, (i < 2 ^ nd)%nat -> d2 !! (e, i) = Some m -> a <= m <= b) -> a <= Tensor_Spec.multilinear nd (fun i => default 0 (d2 !! (e, i))) (fun k => node (Tensor_Spec.digit rs nd k q)) <= b).
  { intros a b B. apply Artvisc_Proofs.multilinear_range; [exact K|]. intros i I. destruct (TE i I) as [v T]. destruct (G2 e i v T) as (m & D & _). rewrite D. cbn. exact (B i m I D). }
  assert (UP : forall i m, (i < 2 ^ nd)%nat -> d2 !! (e, i) = Some m -> 0 <= m <= 1).
  { intros i m I D. destruct (TE i I) as [v T]. destruct (G2 e i v T) as (m' & D' & (e' & i' & T' & ->) & _). assert (m = max_fac (2 ^ nd) d1 e') by congruence. subst m. split; [apply max_fac_spec|].
    apply MX; [eauto|lra|]. intros e'' _. apply RB. }
  split; [apply RANGE, UP|]. split.
  - intros (e' & (i & i' & v & T & T') & E'). apply Rle_antisym; apply (RANGE 1 1); intros i0 m I0 D; (split; [|apply (UP i0 m I0 D)]).
    all: destruct (TE i0 I0) as [v0 T0]; destruct (G2 e i0 v0 T0) as (m' & D' & _ & M); assert (m' = m) by congruence; subst m'; eapply Rle_trans; [|apply (M e i0 T0)].
    all: destruct (G1 e i v T) as (m1 & D1 & _ & M1); eapply Rle_trans; [|apply (proj1 (proj2 (max_fac_spec (2 ^ nd) d1 e)) i m1 (IN _ _ _ T) D1)]; specialize (M1 e' i' T'); rewrite E' in M1; cbn in M1; exact M1.
  - intros Z. apply Rle_antisym; apply (RANGE 0 0); intros i m I D; (split; [apply (UP i m I D)|]).
    all: destruct (TE i I) as [v T]; destruct (G2 e i v T) as (m' & D' & (e' & i' & T' & ->) & _); assert (m = max_fac (2 ^ nd) d1 e') by congruence; subst m; apply MX; [eauto|lra|]; intros e'' TT; rewrite (Z e' e''); [cbn; lra|exists i, i', v; auto|exact TT].
Qed.
Print Assumptions admis_coefs.
(** two elements with a common vertex, the first not admissible: both are smeared fully *)
Example admis_coefs_example : exists h d', Vertex_Model.run Vertex_Thm.pair_ops Vertex_Model.empty_heap = Some h /\
  fix_coefs Vertex_Thm.pair_mesh 2 (fun e => 1 - e)%nat [(1, 0); (0, 1); (1, 1); (0, 0)]%nat [(0, 0); (0, 1); (1, 0); (1, 1)]%nat [(0, 0); (0, 1); (1, 0); (1, 1)]%nat [(0, 0); (0, 1); (1, 0); (1, 1)]%nat h ∅ = Some d' /\
  forall e, (e < 2)%nat -> exists vert r, (forall i, (i < 2)%nat -> d' !! (e, i) = Some (vert i)) /\ Artvisc_Model.vertices_to_qpoints 1 2 (fun _ => 1 / 2) vert = Ok r /\ r 0%nat = 1 /\ r 1%nat = 1.
Proof.
  destruct Vertex_Thm.vertex_sharing_hypothesis as (w & S & O).
  destruct Vertex_Proofs2.empty_rep as [R0 C0]. destruct (Vertex_Proofs2.run_rep Vertex_Thm.pair_ops _ _ w R0 C0 S) as (h & E & R & C). exists h.
  assert (RW : Vertex_Spec.refers w !! 0%nat = Some 0%nat /\ Vertex_Spec.refers w !! 1%nat = Some 1%nat /\ Vertex_Spec.refers w !! 2%nat = Some 1%nat).
  { assert (K : (fun w => (Vertex_Spec.refers w !! 0%nat, Vertex_Spec.refers w !! 1%nat, Vertex_Spec.refers w !! 2%nat)) <$> Vertex_Spec.spec_run Vertex_Thm.pair_ops Vertex_Spec.empty_world = Some (Some 0%nat, Some 1%nat, Some 1%nat)) by (vm_compute; reflexivity).
    rewrite S in K. cbn in K. injection K as K1 K2 K3. auto. }
  assert (ORD : forall l : list (nat * nat), (forall k, k ∈ l <-> k ∈ [(0, 0); (0, 1); (1, 0); (1, 1)]%nat) -> forall k, k ∈ l <-> exists p, Vertex_Spec.place Vertex_Thm.pair_mesh k p).
  { intros l L k. rewrite L. split.
    - rewrite !elem_of_cons, elem_of_nil. intros [->|[->|[->|[->|[]]]]]; eexists; eexists; (split; reflexivity).
    - intros (p & m & A & B). destruct k as [e i]. cbn in A, B. rewrite !elem_of_cons. destruct e as [|[|e]]; cbn in A; try discriminate; injection A as <-; destruct i as [|[|i]]; cbn in B; try discriminate; auto. }
  destruct (admis_coefs Vertex_Thm.pair_ops w h Vertex_Thm.pair_mesh 1 (fun e => 1 - e)%nat [(1, 0); (0, 1); (1, 1); (0, 0)]%nat [(0, 0); (0, 1); (1, 0); (1, 1)]%nat [(0, 0); (0, 1); (1, 0); (1, 1)]%nat [(0, 0); (0, 1); (1, 0); (1, 1)]%nat ∅ S E O) as (d' & D & H).
  1-4: apply ORD; intros k; rewrite !elem_of_cons, elem_of_nil; tauto.
  { intros e. lia. }
  { lia. }
  { intros e l L. destruct e as [|[|e]]; cbn in L; try discriminate; injection L as <-; reflexivity. }
  exists d'. split; [exact E|]. split; [exact D|]. intros e EE. destruct (H e 2%nat (fun _ => 1 / 2)) as (vert & r & V & ER & Q); [lia|intros; lra|destruct e as [|[|e]]; [eexists; reflexivity..|lia]|].
  exists vert, r. split; [exact V|]. split; [exact ER|].
  assert (T : exists e', touch Vertex_Thm.pair_mesh w e e' /\ (1 - e')%nat = 1%nat).
  { exists 0%nat. split; [|reflexivity]. destruct RW as (W0 & W1 & W2). destruct e as [|[|e]]; [exists 0%nat, 0%nat, 0%nat; split; exists [0; 1]%nat, 0%nat; auto|exists 0%nat, 1%nat, 1%nat; split; [exists [2; 3]%nat, 2%nat; auto|exists [0; 1]%nat, 1%nat; auto]|lia]. }
  split; apply Q; cbn; (lia || exact T).
Qed.
