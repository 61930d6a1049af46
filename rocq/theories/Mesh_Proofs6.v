(** [connect_rest]; every history keeps a mesh well-formed. *)
From Coq Require Import ZArith List Bool Reals Permutation Lia.
From Verif Require Import Outcome Math_Model ListUtil Loop Connection_Model Mesh_Model Mesh_Spec Mesh_Proofs Mesh_Proofs2 Mesh_Proofs3 Mesh_Proofs4 Mesh_Proofs5.
Import ListNotations.
Local Open Scope Z_scope.
Local Arguments face_dec : simpl never.
Local Arguments i_face : simpl never.
Local Arguments Nat.ltb : simpl never.
Local Arguments Nat.leb : simpl never.
Local Arguments face_number : simpl never.

Lemma fold_flat : forall A B S (f : S -> B -> S) (g : A -> list B) l z, fold_left f (flat_map g l) z = fold_left (fun z x => fold_left f (g x) z) l z.
Proof. intros A B S f g l. induction l as [|x l IH]; intros z; cbn; [reflexivity|]. now rewrite fold_left_app, IH. Qed.
Lemma fold_map : forall A B S (f : S -> B -> S) (g : A -> B) l z, fold_left f (map g l) z = fold_left (fun z x => f z (g x)) l z.
Proof. intros A B S f g l. induction l as [|x l IH]; intros z; cbn; [reflexivity|]. apply IH. Qed.

(** elements, dimensions and signs in the order of the loops *)
Definition triple := (addr * (nat * bool))%type.
Definition triples (nd : nat) (l : list addr) : list triple := flat_map (fun a => map (pair a) (flat_map (fun i => map (pair i) [false; true]) (seq 0 nd))) l.
Definition tri_face (x : triple) : face := (fst x, face_number (fst (snd x)) (snd (snd x))).
Definition fill (d : bool) (bc : Z) (r : result unit) (x : triple) : result unit :=
  then_ r (fun m _ => if face_record m (fst x) (snd (tri_face x)) =? 0 then new_bound d (fst x) (fst (snd x)) (snd (snd x)) bc m else Done m tt).

Lemma connect_empty_fold : forall d bc m, connect_empty d bc m = fold_left (fill d bc) (triples (n_dim m) (addrs d (of_type d m))) (Done m tt).
Proof.
  intros d bc m. unfold connect_empty, triples. rewrite fold_flat. apply fold_left_ext2. intros r a A. rewrite fold_map, fold_flat. apply fold_left_ext2. intros r' i I.
  rewrite fold_map. apply fold_left_ext2. intros r'' s S. unfold fill. cbn [fst snd tri_face]. now rewrite face_number_dim.
Qed.

Definition fresh (m : mesh) (f : face) : bool := face_record m (fst f) (snd f) =? 0.
Lemma fill_list : forall d bc L m, wf m -> (forall x, In x L -> In (fst x) (elements m) /\ (fst (snd x) < 3)%nat /\ fst (fst x) = d) ->
  exists m' nb new, fold_left (fill d bc) L (Done m tt) = Done m' tt /\ wf m' /\ grows m m' new /\ Permutation (map fst new) (filter (fresh m) (map tri_face L))
    /\ of_type d m' = with_bounds (bounds (of_type d m) ++ nb) (of_type d m) /\ of_type (negb d) m' = of_type (negb d) m /\ (forall c, In c nb -> b_bc c = bc).
Proof.
  intros d bc L. induction L as [|x L IH]; intros m W H; cbn [fold_left].
  - exists m, [], []. split; [reflexivity|]. split; [exact W|]. split; [apply grows_refl|]. split; [reflexivity|]. split; [|split; [reflexivity|intros c []]].
    rewrite app_nil_r. destruct (of_type d m) as [? ? ? ? ?]. reflexivity.
  - destruct (H x) as (HX & HD & HT); [now left|]. unfold fill at 2. cbn [then_]. cbn [map filter]. unfold fresh at 1.
    change (fst (tri_face x)) with (fst x). destruct (_ =? 0).
    + rewrite new_bound_eq by exact HD. set (c := mk_bound _ _ _ _ _). destruct (add_bound_spec d c m W HX HD HT) as [W1 G1]. set (m1 := add_bound d c m) in *.
      pose proof (proj1 G1) as SE. destruct (IH m1 W1) as (m' & nb & new & R & W' & G & P & O & O' & B).
      { intros y Y. rewrite (same_elems_elements _ _ SE). apply H. now right. }
      exists m', (c :: nb), (new ++ bound_ends c). split; [exact R|]. split; [exact W'|]. split; [exact (grows_trans _ _ _ _ _ G1 G)|]. split; [|split; [|split]].
      * rewrite map_app, P. replace (fresh m1) with (fresh m) by reflexivity. cbn [bound_ends map fst]. symmetry. apply Permutation_cons_append.
      * rewrite O. unfold m1, add_bound. destruct d; cbn; now rewrite <- app_assoc.
      * rewrite O'. now destruct d.
      * intros c' [<-|I]; [reflexivity|auto].
    + destruct (IH m W) as (m' & nb & new & R & W' & G & P & O & O' & B); [intros y Y; apply H; now right|]. exists m', nb, new. auto 10.
Qed.

Lemma all_faces_triples : forall nd l, (1 <= nd <= 3)%nat -> map tri_face (triples nd l) = flat_map (fun a => map (fun i => (a, i)) (seq 0 (2 * nd))) l.
Proof.
  intros nd l N. induction l as [|a l IH]; [reflexivity|].
  change (triples nd (a :: l)) with (map (pair a) (flat_map (fun i => map (pair i) [false; true]) (seq 0 nd)) ++ triples nd l).
  rewrite map_app. cbn [flat_map]. refine (f_equal2 _ _ IH).
  assert (nd = 1 \/ nd = 2 \/ nd = 3)%nat as [-> | [-> | ->]] by lia; reflexivity.
Qed.
Lemma triples_in : forall nd l x, In x (triples nd l) -> In (fst x) l /\ (fst (snd x) < nd)%nat.
Proof.
  intros nd l x. unfold triples. rewrite in_flat_map. intros (a & A & I). apply in_map_iff in I. destruct I as (y & <- & I). cbn. split; [exact A|].
  apply in_flat_map in I. destruct I as (i & I & J). apply in_map_iff in J. destruct J as (s & <- & _). apply in_seq in I. cbn. lia.
Qed.
Lemma filter_ext_perm : forall A (p q : A -> bool) l, (forall x, In x l -> p x = q x) -> filter p l = filter q l.
Proof. intros A p q l H. apply filter_ext_in. exact H. Qed.

Lemma connect_rest_spec : forall bc m, wf m -> exists m' nc nd new c, connect_rest bc m = Done m' tt /\ wf m' /\ grows (with_face_record c m) m' new
  /\ Permutation (map fst new) (filter (fun f => (uses m f =? 0)%nat) (all_faces m))
  /\ car m' = with_bounds (bounds (car m) ++ nc) (car m) /\ def m' = with_bounds (bounds (def m) ++ nd) (def m) /\ (forall c, In c nc \/ In c nd -> b_bc c = bc).
Proof.
  intros bc m W. destruct (count_all m W) as (c & R & c' & R' & V). unfold connect_rest. rewrite R, R'. set (m0 := with_face_record c' m).
  assert (W0 : wf m0) by now apply (wf_same m). pose proof (wf_dim _ W) as ND. rewrite connect_empty_fold.
  destruct (fill_list false bc (triples (n_dim m0) (addrs false (of_type false m0))) m0 W0) as (m1 & nc & n1 & F1 & W1 & G1 & P1 & O1 & O1' & B1).
  { intros x X. apply triples_in in X. destruct X as [X D]. split; [apply in_or_app; now left|]. split; [|unfold addrs in X; apply in_map_iff in X; now destruct X as (? & <- & _)]. change (n_dim m0) with (n_dim m) in D. lia. }
  rewrite F1. cbn [then_]. rewrite connect_empty_fold. pose proof (proj1 G1) as SE. destruct SE as (SD & SEL & _ & _ & _ & _ & SFR).
  destruct (fill_list true bc (triples (n_dim m1) (addrs true (of_type true m1))) m1 W1) as (m2 & nd & n2 & F2 & W2 & G2 & P2 & O2 & O2' & B2).
  { intros x X. apply triples_in in X. destruct X as [X D]. split; [apply in_or_app; now right|]. split; [|unfold addrs in X; apply in_map_iff in X; now destruct X as (? & <- & _)]. rewrite SD in D. change (n_dim m0) with (n_dim m) in D. lia. }
  rewrite F2. cbn [negb of_type] in *. exists m2, nc, nd, (n2 ++ n1), c'. split; [reflexivity|]. split; [exact W2|]. split; [exact (grows_trans _ _ _ _ _ G1 G2)|].
  split; [|split; [|split]].
  - rewrite map_app, P1, P2. rewrite SD. replace (fresh m1) with (fresh m0) by (unfold fresh; now rewrite SFR).
    change (n_dim m0) with (n_dim m). rewrite !all_faces_triples by exact ND. change (car m0) with (car m).
    unfold addrs at 1. rewrite (SEL true : elems (def m1) = _). change (elems (of_type true m0)) with (elems (def m)). fold (addrs true (def m)).
    rewrite Permutation_app_comm, <- filter_app, <- flat_map_app. fold (elements m). fold (all_faces m).
    rewrite (filter_ext_perm _ (fresh m0) (fun f => (uses m f =? 0)%nat)); [reflexivity|]. intros f F. unfold fresh. cbn [m0 face_record with_face_record]. rewrite V by exact F.
    destruct (Nat.eqb_spec (uses m f) 0), (Z.eqb_spec (Z.of_nat (uses m f)) 0); lia || reflexivity.
  - rewrite O2'. exact O1.
  - rewrite O2, O1'. reflexivity.
  - intros c0 [I|I]; auto.
Qed.

Lemma NoDup_flat : forall (n : nat) (l : list addr), NoDup l -> NoDup (flat_map (fun a => map (fun i : nat => (a, i)) (seq 0 n)) l).
Proof.
  intros n l. induction l as [|a l IH]; intros N; cbn [flat_map]; [constructor|]. apply NoDup_cons_iff in N. destruct N as [N N'].
  assert (X : forall (k : list nat) l', NoDup k -> NoDup l' -> (forall i, ~ In (a, i) l') -> NoDup (map (fun i => (a, i)) k ++ l')).
  { induction k as [|j k IHk]; intros l' NK NL D; cbn; [exact NL|]. apply NoDup_cons_iff in NK. destruct NK as [NJ NK]. constructor; [|auto].
    rewrite in_app_iff, in_map_iff. intros [(i & E & I)|I]; [injection E as ->; tauto|exact (D j I)]. }
  apply X; [apply seq_NoDup|auto|]. intros i I. apply in_flat_map in I. destruct I as (b & B & I). apply in_map_iff in I. destruct I as (j & E & _). injection E as -> _. tauto.
Qed.
Lemma NoDup_elements : forall m, wf m -> NoDup (elements m).
Proof.
  intros m W. unfold elements, addrs.
  assert (X : forall (d : bool) t n, wf_type n d t -> NoDup (map (fun e : Z * element => (d, fst e)) (elems t))).
  { intros d t n T. pose proof (wt_sn _ _ _ T) as N. rewrite <- (map_map fst (fun sn => (d, sn))). revert N. generalize (map fst (elems t)). intros l N. induction N; cbn; constructor; [|assumption].
    rewrite in_map_iff. intros (y & E & I). injection E as ->. tauto. }
  pose proof (X false (car m) _ (wf_car _ W)) as N1. pose proof (X true (def m) _ (wf_def _ W)) as N2. revert N1 N2.
  generalize (elems (car m)) as l1, (elems (def m)) as l2. intros l1 l2 N1 N2. induction l1 as [|e l1 IH]; [exact N2|]. cbn in *. apply NoDup_cons_iff in N1. destruct N1 as [N N1].
  constructor; [|auto]. rewrite in_app_iff, !in_map_iff. intros [(y & E & I)|(y & E & I)]; [|discriminate]. apply N. apply in_map_iff. eauto.
Qed.

Lemma connect_rest_uses : forall bc m m', wf m -> connect_rest bc m = Done m' tt ->
  forall f, (In f (all_faces m) -> uses m' f = Nat.max 1 (uses m f)) /\ (~ In f (all_faces m) -> uses m' f = uses m f).
Proof.
  intros bc m m' W E. destruct (connect_rest_spec bc m W) as (m1 & nc & nd & new & c & E' & _ & G & P & _). rewrite E in E'. injection E' as <-.
  destruct G as (_ & PE & _ & _). change (ends (with_face_record c m)) with (ends m) in PE. intros f.
  assert (U : uses m' f = (count_occ face_dec (map fst new) f + uses m f)%nat).
  { unfold uses. rewrite <- count_occ_app, <- map_app. apply Permutation_count_occ. now apply Permutation_map. }
  assert (C : count_occ face_dec (map fst new) f = count_occ face_dec (filter (fun f => (uses m f =? 0)%nat) (all_faces m)) f) by now apply Permutation_count_occ.
  rewrite U, C. assert (N : NoDup (filter (fun f => (uses m f =? 0)%nat) (all_faces m))) by (apply NoDup_filter, NoDup_flat, NoDup_elements, W).
  pose proof (proj1 (NoDup_count_occ face_dec _) N f) as LE. split; intros F.
  - destruct (Nat.eqb_spec (uses m f) 0) as [Z|Z].
    + rewrite Z. assert (I : In f (filter (fun f => (uses m f =? 0)%nat) (all_faces m))) by (apply filter_In; now rewrite Z). apply (count_occ_In face_dec) in I. lia.
    + assert (I : ~ In f (filter (fun f => (uses m f =? 0)%nat) (all_faces m))) by (intros I; apply filter_In in I; destruct I as [_ I]; apply Nat.eqb_eq in I; tauto). apply (count_occ_not_In face_dec) in I. lia.
  - assert (I : ~ In f (filter (fun f => (uses m f =? 0)%nat) (all_faces m))) by (intros I; apply filter_In in I; tauto). apply (count_occ_not_In face_dec) in I. lia.
Qed.

Lemma set_warp_good : forall sn w m, wf m -> good_step m (set_warp sn w m).
Proof.
  intros sn w m W. unfold set_warp. set (t := with_elems _ _ _). pose proof (wf_def _ W) as T.
  assert (M : map fst (elems t) = map fst (elems (def m))).
  { cbn. rewrite map_map. apply map_ext. intros e. now destruct (_ =? _). }
  assert (E : elements (with_type true t m) = elements m).
  { unfold elements, addrs. cbn [with_type car def]. rewrite <- !(map_map fst (pair true)), M. reflexivity. }
  split; [|intros _ _ K; exact K]. split; [apply W|apply W| |].
  - split; try apply T.
    + change (NoDup (map fst (elems t))). rewrite M. apply T.
    + intros e I. assert (J : In (fst e) (map fst (elems (def m)))) by (rewrite <- M; now apply in_map). apply in_map_iff in J. destruct J as (e' & <- & J). now apply (wt_next _ _ _ T).
    + discriminate.
  - intros f s I. rewrite E. exact (wf_in _ W f s I).
Qed.
Lemma call_good : forall o m, wf m -> good m (call o m).
Proof.
  intros o m W. destruct o; cbn [call].
  - now apply add_element_good.
  - cbn. now apply good_same.
  - now apply connect_cartesian_good.
  - now apply connect_deformed_good.
  - now apply connect_hanging_good.
  - now apply connect_boundary_good.
  - destruct (disconnect_spec bc m W) as (W' & old & S). split; [exact W'|]. intros O _ K. now apply (shrinks_ptr m _ old).
  - destruct (connect_rest_spec bc m W) as (m' & nc & nd & new & c & -> & W' & G & _). split; [exact W'|]. intros _ O K. apply (grows_ptr _ _ _ G O). exact K.
  - destruct (valid_spec m W) as (m' & -> & c & ->). cbn. now apply good_same.
  - destruct (at_ m true level sn) eqn:A; [|exact W]. now apply set_warp_good.
  - cbn. now apply good_same.
  - now apply purge_good.
Qed.
Lemma reachable_wf : forall nd cov m, (1 <= nd <= 3)%nat -> reachable nd cov m -> wf m.
Proof.
  intros nd cov m N R. induction R as [|m o m' R IH E|m o m' R IH E]; [now apply wf_new| |]; pose proof (call_good o m IH) as G; rewrite E in G; [apply G|exact G].
Qed.
Lemma reachable_once_ok : forall nd cov m, (1 <= nd <= 3)%nat -> reachable_once nd cov m -> wf m /\ once m /\ ptr_ok m.
Proof.
  intros nd cov m N R. induction R as [|m o m' R IH E O].
  - destruct (wf_new nd cov N). split; [assumption|split; [intros f; cbn; lia|assumption]].
  - destruct IH as (W & O1 & K). pose proof (call_good o m W) as G. rewrite E in G. destruct G as [W' P]. split; [exact W'|]. split; [exact O|]. now apply P.
Qed.

(** ** what [purge] keeps *)
Lemma purge_connections_types : forall d m cov, wf m -> covered m = Some cov ->
  of_type d (purge_connections d m) = mk_type (next_sn (of_type d m)) (elems (of_type d m))
    (filter (fun c => negb (negb (record m (c_elem0 c) =? 0) || negb (record m (c_elem1 c) =? 0))) (cons (of_type d m)))
    (map (filter (fun c => negb (negb (record m (r_coarse c) =? 0) || existsb (fun a => negb (record m a =? 0)) (r_fine c)))) (refs (of_type d m)))
    (filter (fun c => negb (cov (b_elem c) (face_number (b_dim c) (b_sign c)) || negb (record m (b_elem c) =? 0))) (bounds (of_type d m))).
Proof.
  intros d m cov W C. unfold purge_connections. rewrite C.
  set (p1 := fun c : bound_con => (_ || _)%bool). destruct (erase_bounds_spec p1 d m W) as (F1 & E1 & W1 & S1). set (m1 := erase_bounds p1 d m) in *.
  set (p2 := fun c : con => (_ || _)%bool). destruct (erase_cons_spec p2 d m1 W1) as (F2 & E2 & W2 & S2). set (m2 := erase_cons p2 d m1) in *.
  set (p3 := fun c : ref_con => (_ || _)%bool). destruct (erase_refs_spec p3 d m2 W2) as (F3 & E3 & W3 & S3). set (m3 := erase_refs p3 d m2) in *.
  assert (D1 : of_type d m1 = with_bounds (filter (fun c => negb (p1 c)) (bounds (of_type d m))) (of_type d m)) by (rewrite E1; now destruct d).
  assert (D2 : of_type d m2 = with_cons (filter (fun c => negb (p2 c)) (cons (of_type d m))) (of_type d m1)) by (rewrite E2; destruct d; cbn in *; now rewrite D1).
  assert (D3 : of_type d m3 = with_refs (map (filter (fun c => negb (p3 c))) (refs (of_type d m))) (of_type d m2)) by (rewrite E3; destruct d; cbn in *; now rewrite D2, D1).
  rewrite D3, D2, D1. unfold with_refs, with_cons, with_bounds. cbn [next_sn elems cons refs bounds]. reflexivity.
Qed.
Lemma purge_types : forall m cov, wf m -> covered m = Some cov -> forall d, remaining (fun a => negb (record m a =? 0)) cov d (of_type d m) (of_type d (purge m)).
Proof.
  intros m cov W C. unfold purge. rewrite C. destruct (purge_connections_spec false m W) as (W1 & _ & R1 & C1 & O1 & _).
  pose proof (purge_connections_types false m cov W C) as T1. set (m1 := purge_connections false m) in *. clearbody m1.
  destruct (purge_connections_spec true m1 W1) as (W2 & _ & R2 & _ & O2 & _). rewrite C in C1.
  pose proof (purge_connections_types true m1 cov W1 C1) as T2. set (m2 := purge_connections true m1) in *. clearbody m2.
  destruct (purge_elems_types false m2) as (A1 & A2 & A3 & _). destruct (purge_elems_types true (purge_elems false m2)) as (B1 & B2 & _).
  cbn [negb] in *. intros [|].
  - rewrite B1, A3, A2, T2, O1, R2, R1. repeat split. cbn. apply filter_ext. intros e. now rewrite negb_involutive.
  - rewrite B2, A1, O2, T1, R2, R1. repeat split. cbn. apply filter_ext. intros e. now rewrite negb_involutive.
Qed.
