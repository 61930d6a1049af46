(** The kernels over a whole mesh: sums over elements become sums over faces, which cancel in pairs. *)
From Coq Require Import Reals List Arith Lia Lra FunctionalExtensionality Permutation.
From Verif Require Import Outcome RSum Tensor_Spec Tensor_Proofs Row_Model Row_Spec Row_Proofs Connection_Model Quad_Model Quad_Spec Quad_Proofs Quad_Proofs2 Spatial_Model Spatial_Spec Spatial_Proofs Spatial_Proofs2 Spatial_Proofs3 Spatial_Proofs4.
Import ListNotations.
Local Open Scope R_scope.

Lemma nodup_app_right {A} (l l' : list A) : NoDup (l ++ l') -> NoDup l'.
Proof. induction l as [|x l IH]; intros N; [exact N|]. inversion N; subst. now apply IH. Qed.
Lemma nodup_app_left {A} (l l' : list A) : NoDup (l ++ l') -> NoDup l.
Proof. induction l as [|x l IH]; intros N; [constructor|]. inversion N as [|? ? NI ND]; subst. constructor; [intros I; apply NI, in_or_app; now left|now apply IH]. Qed.
(** ** a kernel goes through a list; each item works on places of its own *)
Lemma fold_frame {St A Key V} (get : St -> Key -> V) (step : St -> A -> St) (touch : A -> list Key) (Q : A -> St -> St -> Prop) (l : list A) :
  (forall a s k, In a l -> ~ In k (touch a) -> get (step s a) k = get s k) ->
  (forall a s, In a l -> Q a s (step s a)) ->
  (forall a s t s' t', In a l -> (forall k, In k (touch a) -> get s k = get s' k) -> (forall k, In k (touch a) -> get t k = get t' k) -> Q a s t -> Q a s' t') ->
  NoDup (flat_map touch l) -> forall s,
  (forall k, ~ In k (flat_map touch l) -> get (fold_left step l s) k = get s k) /\ (forall a, In a l -> Q a s (fold_left step l s)).
Proof.
  induction l as [|a l IH]; intros F H X N s; [split; [reflexivity|intros a []]|]. cbn [flat_map fold_left] in *.
  assert (N1 : NoDup (flat_map touch l)) by (apply nodup_app_right in N; exact N).
  assert (N2 : forall k, In k (touch a) -> ~ In k (flat_map touch l)).
  { clear - N. revert N. generalize (touch a) as u. induction u as [|x u IH]; intros N k []; cbn in N; inversion N as [|? ? NI ND]; subst; [intros I; apply NI, in_or_app; now right|now apply IH]. }
  destruct (IH (fun a' s' k I => F a' s' k (or_intror I)) (fun a' s' I => H a' s' (or_intror I)) (fun a' s1 t1 s2 t2 I => X a' s1 t1 s2 t2 (or_intror I)) N1 (step s a)) as [A1 A2].
  split.
  - intros k K. rewrite A1 by (intros I; apply K, in_or_app; now right). apply F; [now left|]. intros I. apply K, in_or_app. now left.
  - intros b [<-|B].
    + apply (X a s (step s a)); [now left|reflexivity| |apply H; now left]. intros k K. symmetry. apply A1. now apply N2.
    + apply (X b (step s a) (fold_left step l (step s a))); [now right| |reflexivity|now apply A2]. intros k K. apply F; [now left|]. intros I. apply (N2 k I). apply in_flat_map. now exists b.
Qed.

(** ** sums over lists *)
Lemma lsum_nil {A} (f : A -> R) : lsum f [] = 0. Proof. reflexivity. Qed.
Lemma lsum_cons {A} (f : A -> R) x l : lsum f (x :: l) = f x + lsum f l. Proof. reflexivity. Qed.
Lemma lsum_app {A} (f : A -> R) l l' : lsum f (l ++ l') = lsum f l + lsum f l'.
Proof. induction l as [|x l IH]; cbn [app]; rewrite ?lsum_nil, ?lsum_cons; [ring|]. rewrite IH. ring. Qed.
Lemma lsum_perm {A} (f : A -> R) l l' : Permutation l l' -> lsum f l = lsum f l'.
Proof. induction 1; rewrite ?lsum_cons; lra. Qed.
Lemma lsum_ext {A} (f g : A -> R) l : (forall x, In x l -> f x = g x) -> lsum f l = lsum g l.
Proof. induction l as [|x l IH]; intros H; [reflexivity|]. rewrite !lsum_cons, IH by (intros; apply H; now right). now rewrite H by now left. Qed.
Lemma lsum_flat {A B} (f : B -> R) (g : A -> list B) l : lsum f (flat_map g l) = lsum (fun a => lsum f (g a)) l.
Proof. induction l as [|x l IH]; [reflexivity|]. cbn [flat_map]. rewrite lsum_app, IH. reflexivity. Qed.
Lemma lsum_map {A B} (f : B -> R) (g : A -> B) l : lsum f (map g l) = lsum (fun a => f (g a)) l.
Proof. induction l as [|x l IH]; [reflexivity|]. cbn [map]. rewrite !lsum_cons. now rewrite IH. Qed.
Lemma lsum_scal {A} c (f : A -> R) l : lsum (fun a => c * f a) l = c * lsum f l.
Proof. induction l as [|x l IH]; rewrite ?lsum_nil, ?lsum_cons; [ring|]. rewrite IH. ring. Qed.
Lemma lsum_plus {A} (f g : A -> R) l : lsum (fun a => f a + g a) l = lsum f l + lsum g l.
Proof. induction l as [|x l IH]; rewrite ?lsum_nil, ?lsum_cons; [ring|]. rewrite IH. ring. Qed.
Lemma lsum_0 {A} (l : list A) : lsum (fun _ => 0) l = 0.
Proof. induction l as [|x l IH]; rewrite ?lsum_nil, ?lsum_cons; [reflexivity|]. rewrite IH. ring. Qed.
Lemma lsum_seq f n : lsum f (seq 0 n) = rsum n f.
Proof. induction n as [|n IH]; [reflexivity|]. rewrite seq_S, lsum_app, IH, lsum_cons, lsum_nil. cbn [rsum]. rewrite Nat.add_0_l. ring. Qed.
Lemma rsum_pairs n f : rsum (2 * n) f = rsum n (fun d => f (2 * d)%nat + f (2 * d + 1)%nat).
Proof. induction n as [|n IH]; [reflexivity|]. replace (2 * S n)%nat with (S (S (2 * n))) by lia. cbn [rsum]. rewrite IH. replace (2 * n + 1)%nat with (S (2 * n)) by lia. ring. Qed.

Section Mesh.
Variables (m : mesh) (size : nat -> R) (positive : nat -> bool) (ghosts : list nat) (eq : pde).
Hypothesis F : fits m size positive ghosts.
Let nd := m_dim m.
Let rs := m_row_size m.
Let b := m_basis m.
Let wt := b_weight b.
Hypotheses (G : good rs b) (HV : halves rs b) (SY : symmetric rs wt).
Let R0 : (0 < rs)%nat. Proof. pose proof (fit_rows _ _ _ _ F). unfold rs. lia. Qed.
Let N0 : (0 < nd)%nat. Proof. pose proof (fit_dim _ _ _ _ F). unfold nd. lia. Qed.
Let qd (a : arr) v := quad (nd - 1) rs wt a v.
Let weigh (g : nat -> R) (id : nat) : R := (if positive id then 1 else -1) * size id ^ (nd - 1) * g id.

(** ** who is who *)
Lemma inner_nodup : NoDup (inner_faces m). Proof. pose proof (fit_distinct _ _ _ _ F) as H. now apply nodup_app_left in H. Qed.
Lemma app_apart {A} (l l' : list A) x : NoDup (l ++ l') -> In x l -> ~ In x l'.
Proof. intros N. induction l as [|y l IH]; intros []; cbn in N; inversion N as [|? ? NI ND]; subst; [intros I; apply NI, in_or_app; now right|now apply IH]. Qed.
Lemma inner_mortar id : In id (inner_faces m) -> ~ In id (all_mortars m).
Proof. intros H I. apply (app_apart _ _ _ (fit_distinct _ _ _ _ F) H). apply in_or_app. now left. Qed.
Lemma inner_ghost id : In id (inner_faces m) -> ~ In id ghosts.
Proof. intros H I. apply (app_apart _ _ _ (fit_distinct _ _ _ _ F) H). apply in_or_app. now right. Qed.
Lemma mortar_ghost id : In id (all_mortars m) -> ~ In id ghosts.
Proof. pose proof (fit_distinct _ _ _ _ F) as D. apply nodup_app_right in D. now apply app_apart. Qed.
Lemma coarse_inner id : In id (coarse_faces m) -> In id (inner_faces m). Proof. apply (fit_coarse _ _ _ _ F). Qed.
Lemma left_nodup : NoDup (side_faces (cons m) ++ coarse_faces m). Proof. apply (Permutation_NoDup (Permutation_sym (fit_matched _ _ _ _ F))). apply (fit_distinct _ _ _ _ F). Qed.
Lemma sides_nodup : NoDup (side_faces (cons m)). Proof. pose proof left_nodup as H. now apply nodup_app_left in H. Qed.
Lemma coarse_nodup : NoDup (coarse_faces m). Proof. pose proof left_nodup as H. now apply nodup_app_right in H. Qed.
Lemma side_coarse id : In id (side_faces (cons m)) -> ~ In id (coarse_faces m). Proof. apply app_apart, left_nodup. Qed.
Lemma mortars_nodup : NoDup (all_mortars m). Proof. pose proof (fit_distinct _ _ _ _ F) as D. apply nodup_app_right in D. now apply nodup_app_left in D. Qed.
Definition touched (r : refined_face) : list nat := r_coarse r :: mortars nd r.
Lemma flat_nodup {A B} (f : A -> list B) l a : NoDup (flat_map f l) -> In a l -> NoDup (f a).
Proof. induction l as [|x l IH]; intros N []; cbn in N; [subst; now apply nodup_app_left in N|apply IH; [now apply nodup_app_right in N|assumption]]. Qed.
Lemma touched_perm l : Permutation (flat_map touched l) (map r_coarse l ++ flat_map (mortars nd) l).
Proof.
  induction l as [|r l IH]; [reflexivity|]. cbn [flat_map map app touched]. apply perm_skip. rewrite IH. rewrite !app_assoc. apply Permutation_app_tail, Permutation_app_comm.
Qed.
Lemma nodup_app {A} (l l' : list A) : NoDup l -> NoDup l' -> (forall x, In x l -> ~ In x l') -> NoDup (l ++ l').
Proof. induction l as [|x l IH]; intros N N' D; [exact N'|]. cbn. inversion N; subst. constructor; [|apply IH; auto; intros; apply D; now right]. intros I. apply in_app_or in I as [I|I]; [contradiction|]. apply (D x); [now left|exact I]. Qed.
Lemma touched_nodup : NoDup (flat_map touched (ref_faces m)).
Proof. apply (Permutation_NoDup (Permutation_sym (touched_perm _))). apply nodup_app; [apply coarse_nodup|apply mortars_nodup|]. intros x I. apply inner_mortar, coarse_inner, I. Qed.
Lemma mortar_in r k : In r (ref_faces m) -> (k < n_fine nd (r_stretch r))%nat -> In (r_fine r k) (all_mortars m).
Proof. intros I K. apply in_flat_map. exists r. split; [exact I|]. apply in_map_iff. exists k. split; [reflexivity|]. apply in_seq. unfold nd in K. lia. Qed.
Lemma coarse_in r : In r (ref_faces m) -> In (r_coarse r) (coarse_faces m). Proof. apply in_map. Qed.
Lemma coarse_fine r k : In r (ref_faces m) -> (k < n_fine nd (r_stretch r))%nat -> r_coarse r <> r_fine r k.
Proof. intros I K E. apply (inner_mortar (r_coarse r)); [apply coarse_inner, coarse_in, I|]. rewrite E. now apply mortar_in. Qed.
Lemma nodup_map_inj {B} (f : nat -> B) n : NoDup (map f (seq 0 n)) -> forall i j, (i < n)%nat -> (j < n)%nat -> f i = f j -> i = j.
Proof. intros N i j I J E. rewrite NoDup_nth with (d := f 0%nat) in N. rewrite map_length, seq_length in N. apply N; [assumption|assumption|]. rewrite !(map_nth f (seq 0 n) 0%nat), !seq_nth by assumption. exact E. Qed.
Lemma fine_inj r : In r (ref_faces m) -> forall k l, (k < n_fine nd (r_stretch r))%nat -> (l < n_fine nd (r_stretch r))%nat -> r_fine r k = r_fine r l -> k = l.
Proof. intros I. apply nodup_map_inj. exact (flat_nodup (mortars nd) _ r mortars_nodup I). Qed.
Lemma face_inj i : In i (elems m) -> forall k l, (k < 2 * nd)%nat -> (l < 2 * nd)%nat -> e_face (m_elem m i) k = e_face (m_elem m i) l -> k = l.
Proof. intros I. apply nodup_map_inj. exact (flat_nodup (fun i => faces_of nd (m_elem m i)) _ i inner_nodup I). Qed.
Lemma face_in i f : In i (elems m) -> (f < 2 * nd)%nat -> In (e_face (m_elem m i) f) (inner_faces m).
Proof. intros I K. apply in_flat_map. exists i. split; [exact I|]. apply in_map. apply in_seq. unfold nd in K. lia. Qed.
Lemma sides_apart c : In c (cons m) -> c_face c false <> c_face c true.
Proof. intros I E. pose proof (flat_nodup (fun c => [c_face c false; c_face c true]) _ c sides_nodup I) as N. inversion N as [|? ? NI _]; subst. apply NI. left. now symmetry. Qed.
Lemma side_in c side : In c (cons m) -> In (c_face c side) (side_faces (cons m)).
Proof. intros I. apply in_flat_map. exists c. split; [exact I|]. destruct side; [right; now left|now left]. Qed.

(** ** what flows into faces comes out of the other side *)
Lemma flow_balance (g : nat -> R) : (forall c, In c (cons m) -> exists total, forall side, g (c_face c side) = side_sign c side * total) ->
  (forall r, In r (ref_faces m) -> g (r_coarse r) = rsum (n_fine nd (r_stretch r)) (fun k => (1 / 2) ^ (nd - 1) * g (r_fine r k))) ->
  lsum (weigh g) (inner_faces m) = - lsum (weigh g) ghosts.
Proof.
  intros HC HR. pose proof (lsum_perm (weigh g) _ _ (fit_matched _ _ _ _ F)) as P. rewrite !lsum_app in P.
  assert (C : lsum (weigh g) (side_faces (cons m)) = 0).
  { unfold side_faces. rewrite lsum_flat. rewrite <- (lsum_0 (cons m)). apply lsum_ext. intros c I. destruct (HC c I) as [t T]. destruct (fit_cons _ _ _ _ F c I) as [S1 S2]. cbn. unfold weigh. rewrite !T, !S2, S1.
    unfold side_sign. destruct (c_deformed c); [|cbn; ring]. unfold flip_normal, face_sign. destruct (sign0 (c_dir c)), (sign1 (c_dir c)); cbn; ring. }
  assert (M : lsum (weigh g) (coarse_faces m) = lsum (weigh g) (all_mortars m)).
  { unfold coarse_faces, all_mortars. rewrite lsum_map, lsum_flat. apply lsum_ext. intros r I. unfold mortars. rewrite lsum_map, lsum_seq. unfold weigh at 1. rewrite HR by exact I. rewrite <- rsum_scal. fold nd. apply rsum_ext. intros k K.
    destruct (fit_refined _ _ _ _ F r k I K) as [S1 S2]. unfold weigh. rewrite S1, S2. unfold Rdiv. rewrite !Rpow_mult_distr. rewrite pow1. ring. }
  lra.
Qed.
Definition outflow (s : nat -> arr) v : R := lsum (fun i => e_size (m_elem m i) ^ (nd - 1) * flux_out nd rs wt (gather (m_elem m i) s) v) (elems m).
Lemma outflow_faces s v : outflow s v = lsum (weigh (fun id => qd (s id) v)) (inner_faces m).
Proof.
  unfold outflow, inner_faces. rewrite lsum_flat. apply lsum_ext. intros i I. unfold faces_of. rewrite lsum_map, lsum_seq, rsum_pairs. fold nd. unfold flux_out. rewrite <- rsum_scal. apply rsum_ext. intros d D.
  destruct (fit_elem _ _ _ _ F i I) as (_ & _ & E). destruct (E (2 * d)%nat) as [E1 E2]; [fold nd; lia|]. destruct (E (2 * d + 1)%nat) as [E3 E4]; [fold nd; lia|].
  unfold weigh, qd, gather. rewrite E1, E2, E3, E4. rewrite Nat.odd_mul, Nat.odd_add, Nat.odd_mul. cbn [Nat.odd Nat.even negb andb xorb]. ring.
Qed.
Lemma through_ghosts s v : through m size positive ghosts s v = lsum (weigh (fun id => qd (s id) v)) ghosts. Proof. reflexivity. Qed.

(** ** connections *)
Lemma run_neighbor_app l l' x : run_neighbor m eq l' (run_neighbor m eq l x) = run_neighbor m eq (l ++ l') x.
Proof.
  unfold run_neighbor. rewrite fold_left_app. destruct (fold_left _ l (d_st x, d_ldg x)) as [st ldg]. cbn [d_st d_ldg d_state d_ref]. reflexivity.
Qed.
Lemma run_neighbor_keeps l x : d_state (run_neighbor m eq l x) = d_state x /\ d_ref (run_neighbor m eq l x) = d_ref x.
Proof. unfold run_neighbor. destruct (fold_left _ l (d_st x, d_ldg x)). split; reflexivity. Qed.
Lemma run_neighbor_spec x : let x' := run_neighbor m eq (cons m) x in
  (forall id, ~ In id (side_faces (cons m)) -> d_st x' id = d_st x id /\ d_ldg x' id = d_ldg x id) /\
  (has_convection eq = true -> forall c v, In c (cons m) -> (v < n_update eq)%nat -> exists total, forall side, qd (d_st x' (c_face c side)) v = side_sign c side * total).
Proof.
  cbv zeta. unfold run_neighbor. set (step := fun s c => neighbor (m_dim m) (m_row_size m) eq c s).
  pose (get := fun (s : (nat -> arr) * (nat -> arr)) (k : nat) => (fst s k, snd s k)).
  pose (Q := fun (c : con) (s t : (nat -> arr) * (nat -> arr)) => has_convection eq = true -> forall v, (v < n_update eq)%nat -> exists total, forall side, qd (fst t (c_face c side)) v = side_sign c side * total).
  pose proof (fold_frame get step (fun c => [c_face c false; c_face c true]) Q (cons m)) as X.
  destruct (X) with (s := (d_st x, d_ldg x)) as [X1 X2]; clear X.
  - intros c [st ldg] k I K. unfold get, step. destruct (neighbor_spec (m_dim m) (m_row_size m) eq c st ldg R0 (sides_apart c I)) as [O _ _ _ _ _ _]. destruct (O k) as [O1 O2]; [intros ->; apply K; now left|intros ->; apply K; right; now left|]. cbn [fst snd]. rewrite O1, O2. reflexivity.
  - intros c [st ldg] I HC v V. eexists. intros side. apply (neighbor_quad nd rs wt eq c st ldg v R0 SY (sides_apart c I) HC V).
  - intros c s t s' t' I _ E H HC v V. destruct (H HC v V) as [tot T]. exists tot. intros side. rewrite <- T. specialize (E (c_face c side)). unfold get in E. assert (EE : (fst t (c_face c side), snd t (c_face c side)) = (fst t' (c_face c side), snd t' (c_face c side))) by (apply E; destruct side; [right; now left|now left]). now injection EE as -> _.
  - exact sides_nodup.
  - destruct (fold_left step (cons m) (d_st x, d_ldg x)) as [st ldg]. cbn [d_st d_ldg]. split.
    + intros id K. specialize (X1 id K). unfold get in X1. cbn in X1. now injection X1 as -> ->.
    + intros HC c v I V. apply (X2 c I HC v V).
Qed.
Lemma run_reconcile_con_app junk l l' x : run_neighbor_reconcile m eq junk l' (run_neighbor_reconcile m eq junk l x) = run_neighbor_reconcile m eq junk (l ++ l') x.
Proof. unfold run_neighbor_reconcile. rewrite fold_left_app. reflexivity. Qed.
Lemma run_neighbor_reconcile_spec junk x : let x' := run_neighbor_reconcile m eq junk (cons m) x in
  (forall id, ~ In id (side_faces (cons m)) -> d_ldg x' id = d_ldg x id) /\
  (forall c v, In c (cons m) -> (v < n_update eq)%nat -> exists total, forall side, qd (d_ldg x (c_face c side)) v + qd (d_ldg x' (c_face c side)) v = side_sign c side * total).
Proof.
  cbv zeta. unfold run_neighbor_reconcile. set (step := fun s c => neighbor_reconcile (m_dim m) (m_row_size m) eq junk c s). cbn [d_ldg].
  pose (get := fun (s : nat -> arr) (k : nat) => s k).
  pose (Q := fun (c : con) (s t : nat -> arr) => forall v, (v < n_update eq)%nat -> exists total, forall side, qd (s (c_face c side)) v + qd (t (c_face c side)) v = side_sign c side * total).
  pose proof (fold_frame get step (fun c => [c_face c false; c_face c true]) Q (cons m)) as X.
  destruct (X) with (s := d_ldg x) as [X1 X2]; clear X.
  - intros c s k I K. apply neighbor_reconcile_other; intros ->; apply K; [now left|right; now left].
  - intros c s I v V. apply (neighbor_reconcile_quad nd rs wt eq junk c s v R0 SY (sides_apart c I) V).
  - intros c s t s' t' I E E' H v V. destruct (H v V) as [tot T]. exists tot. intros side. rewrite <- T.
    assert (IN : In (c_face c side) [c_face c false; c_face c true]) by (destruct side; [right; now left|now left]). specialize (E _ IN). specialize (E' _ IN). unfold get in E, E'. now rewrite E, E'.
  - exact sides_nodup.
  - split; [exact X1|]. intros c v I V. apply (X2 c I v V).
Qed.

(** ** refined faces *)
Definition the_restrict (scl : bool) : (nat -> arr) -> nat -> arr := fold_left (fun s r => restrict_refined (m_dim m) (m_row_size m) (n_extrap eq) (m_basis m) scl (r_coarse r) (r_fine r) (r_stretch r) s) (ref_faces m).
Definition the_prolong (scl : bool) : (nat -> arr) -> nat -> arr := fold_left (fun s r => prolong_refined (m_dim m) (m_row_size m) (n_extrap eq) (m_basis m) scl (r_coarse r) (r_fine r) (r_stretch r) s) (ref_faces m).
Lemma touched_out r k : ~ In k (touched r) -> k <> r_coarse r /\ forall j, (j < n_fine nd (r_stretch r))%nat -> k <> r_fine r j.
Proof. intros H. split; [intros ->; apply H; now left|]. intros j J ->. apply H. right. apply in_map, in_seq. lia. Qed.
Lemma touched_flat k : ~ In k (coarse_faces m) -> ~ In k (all_mortars m) -> ~ In k (flat_map touched (ref_faces m)).
Proof. intros A B I. apply (Permutation_in _ (touched_perm _)) in I. apply in_app_or in I as [I|I]; [now apply A|now apply B]. Qed.
Lemma the_restrict_other scl s id : ~ In id (coarse_faces m) -> ~ In id (all_mortars m) -> the_restrict scl s id = s id.
Proof.
  intros A B. pose proof (touched_flat id A B) as H. unfold the_restrict. revert s H. generalize (ref_faces m) as l. induction l as [|r l IH]; intros s H; [reflexivity|]. cbn [fold_left flat_map] in *. rewrite IH by (intros I; apply H, in_or_app; now right).
  destruct (touched_out r id) as [T1 T2]; [intros I; apply H, in_or_app; now left|]. now apply restrict_refined_other.
Qed.
Lemma the_restrict_quad s r v : In r (ref_faces m) -> (v < n_extrap eq)%nat -> qd (the_restrict true s (r_coarse r)) v = rsum (n_fine nd (r_stretch r)) (fun k => (1 / 2) ^ (nd - 1) * qd (s (r_fine r k)) v).
Proof.
  intros I V. unfold the_restrict. set (step := fun s r => restrict_refined _ _ _ _ _ _ _ _ s).
  pose (Q := fun (r : refined_face) (s t : nat -> arr) => forall v, (v < n_extrap eq)%nat -> qd (t (r_coarse r)) v = rsum (n_fine nd (r_stretch r)) (fun k => (1 / 2) ^ (nd - 1) * qd (s (r_fine r k)) v)).
  pose proof (fold_frame (fun (s : nat -> arr) k => s k) step touched Q (ref_faces m)) as X.
  destruct (X) with (s := s) as [_ X2]; clear X; [| | | |exact (X2 r I v V)].
  - intros r' s' k _ K. destruct (touched_out r' k K) as [T1 T2]. now apply restrict_refined_other.
  - intros r' s' I' v' V'. apply (restrict_refined_quad nd rs (n_extrap eq) b); try assumption; [intros; now apply coarse_fine|now apply fine_inj].
  - intros r' s1 t1 s2 t2 I' E E' H v' V'. rewrite <- (E' (r_coarse r')) by now left. rewrite H by exact V'. apply rsum_ext. intros k K. rewrite (E (r_fine r' k)); [reflexivity|]. right. apply in_map, in_seq. lia.
  - exact touched_nodup.
Qed.
Lemma the_prolong_other scl s id : ~ In id (all_mortars m) -> the_prolong scl s id = s id.
Proof.
  unfold the_prolong, all_mortars. fold nd. revert s. generalize (ref_faces m) as l. induction l as [|r l IH]; intros s H; [reflexivity|]. cbn [fold_left flat_map] in *. rewrite IH by (intros I; apply H, in_or_app; now right).
  apply prolong_refined_other. intros k K ->. apply H, in_or_app. left. apply in_map, in_seq. fold nd in K. lia.
Qed.
Lemma the_prolong_quad s r v : In r (ref_faces m) -> (v < n_extrap eq)%nat -> qd (s (r_coarse r)) v = rsum (n_fine nd (r_stretch r)) (fun k => (1 / 2) ^ (nd - 1) * qd (the_prolong true s (r_fine r k)) v).
Proof.
  intros I V. unfold the_prolong. set (step := fun s r => prolong_refined _ _ _ _ _ _ _ _ s).
  pose (Q := fun (r : refined_face) (s t : nat -> arr) => forall v, (v < n_extrap eq)%nat -> qd (s (r_coarse r)) v = rsum (n_fine nd (r_stretch r)) (fun k => (1 / 2) ^ (nd - 1) * qd (t (r_fine r k)) v)).
  pose proof (fold_frame (fun (s : nat -> arr) k => s k) step touched Q (ref_faces m)) as X.
  destruct (X) with (s := s) as [_ X2]; clear X; [| | | |exact (X2 r I v V)].
  - intros r' s' k _ K. destruct (touched_out r' k K) as [T1 T2]. now apply prolong_refined_other.
  - intros r' s' I' v' V'. symmetry. apply (prolong_refined_quad nd rs (n_extrap eq) b); try assumption; [apply (fit_dim _ _ _ _ F)|intros; now apply coarse_fine|now apply fine_inj].
  - intros r' s1 t1 s2 t2 I' E E' H v' V'. rewrite <- (E (r_coarse r')) by now left. rewrite H by exact V'. apply rsum_ext. intros k K. rewrite (E' (r_fine r' k)); [reflexivity|]. right. apply in_map, in_seq. lia.
  - exact touched_nodup.
Qed.

(** ** elements *)
Lemma scatter_out e faces s id : (forall f, (f < 2 * nd)%nat -> id <> e_face e f) -> scatter nd e faces s id = s id.
Proof. intros H. unfold scatter. apply (loop_inv (fun _ t => t id = s id)); [reflexivity|]. intros i t I <-. now rewrite fput_out by now apply H. Qed.
Lemma scatter_in e faces s f : (forall k l, (k < 2 * nd)%nat -> (l < 2 * nd)%nat -> e_face e k = e_face e l -> k = l) -> (f < 2 * nd)%nat -> scatter nd e faces s (e_face e f) = faces f.
Proof.
  intros J FI. unfold scatter. apply (loop_inv (fun n t => (f < n)%nat -> t (e_face e f) = faces f)); [lia| |exact FI]. intros i t I H L. destruct (Nat.eq_dec f i) as [->|N]; [now rewrite fput_in|]. rewrite fput_out; [apply H; lia|]. intros E. apply J in E; lia.
Qed.
Lemma flux_out_ext faces faces' v : (forall f, (f < 2 * nd)%nat -> faces f = faces' f) -> flux_out nd rs wt faces v = flux_out nd rs wt faces' v.
Proof. intros H. apply rsum_ext. intros d D. now rewrite !H by lia. Qed.
Let place (x : data) (k : nat + nat) : arr * arr := match k with inl id => (d_st x id, d_ldg x id) | inr i => (d_state x i, d_ref x i) end.
Let places (i : nat) : list (nat + nat) := inr i :: map inl (faces_of nd (m_elem m i)).
Lemma places_face i f : (f < 2 * nd)%nat -> In (inl (e_face (m_elem m i) f)) (places i).
Proof. intros H. right. apply in_map, in_map, in_seq. lia. Qed.
Lemma places_out i k : ~ In k (places i) -> (forall f, (f < 2 * nd)%nat -> k <> inl (e_face (m_elem m i) f)) /\ k <> inr i.
Proof. intros H. split; [intros f K ->; apply H; now apply places_face|intros ->; apply H; now left]. Qed.
Lemma places_perm l : Permutation (flat_map places l) (map inr l ++ map inl (flat_map (fun i => faces_of nd (m_elem m i)) l)).
Proof.
  induction l as [|i l IH]; [reflexivity|]. cbn [flat_map map app places]. apply perm_skip. rewrite IH, map_app, !app_assoc. apply Permutation_app_tail, Permutation_app_comm.
Qed.
Lemma places_nodup : NoDup (flat_map places (elems m)).
Proof.
  apply (Permutation_NoDup (Permutation_sym (places_perm _))). apply nodup_app.
  - apply FinFun.Injective_map_NoDup; [intros ? ?; congruence|apply (fit_elems _ _ _ _ F)].
  - apply FinFun.Injective_map_NoDup; [intros ? ?; congruence|exact inner_nodup].
  - intros x A B. apply in_map_iff in A as (? & <- & _). apply in_map_iff in B as (? & ? & _). discriminate.
Qed.
Lemma places_face_out id : ~ In id (inner_faces m) -> ~ In (inl id) (flat_map places (elems m)).
Proof. intros H I. apply (Permutation_in _ (places_perm _)) in I. apply in_app_or in I as [I|I]; apply in_map_iff in I as (? & E & I); [discriminate|]. injection E as ->. now apply H. Qed.
Lemma elem_ready i : In i (elems m) -> ready nd rs (m_elem m i).
Proof. intros I. destruct (fit_elem _ _ _ _ F i I) as (A & B & _). split; [exact A|exact B]. Qed.

Record elem_result (update : R) (stage cr : bool) (i : nat) (x x' : data) : Prop := {
  er_change : forall v, (v < n_update eq)%nat -> amount nd rs wt (m_elem m i) (fun k => if cr then d_ref x' i k else d_state x' i k - d_state x i k) v =
    update * (e_size (m_elem m i) ^ (nd - 1) * (- (if has_convection eq then flux_out nd rs wt (gather (m_elem m i) (d_st x)) v else 0) - (if has_diffusion eq then flux_out nd rs wt (gather (m_elem m i) (d_ldg x')) v else 0) - (if stage then quad nd rs wt (d_ref x i) v else 0)));
  er_state : cr = true -> d_state x' i = d_state x i;
  er_cache : cr = false -> stage = false -> has_convection eq = true -> forall v, (v < n_update eq)%nat -> quad nd rs wt (d_ref x' i) v = - flux_out nd rs wt (gather (m_elem m i) (d_st x)) v;
  er_cache_kept : cr = false -> (stage || negb (has_convection eq))%bool = true -> d_ref x' i = d_ref x i;
  er_visc : has_diffusion eq = false -> forall f, (f < 2 * nd)%nat -> d_ldg x' (e_face (m_elem m i) f) = d_ldg x (e_face (m_elem m i) f) }.
Lemma run_local_spec dt (stage cr use_filter : bool) x : additive eq -> has_source eq = false -> (has_diffusion eq = true -> n_extrap eq <= 2 * n_update eq)%nat -> (stage = true -> has_diffusion eq = false) ->
  let x' := run_local m eq dt stage cr use_filter (elems m) x in
  (forall id, ~ In id (inner_faces m) -> d_st x' id = d_st x id /\ d_ldg x' id = d_ldg x id) /\
  (forall i, In i (elems m) -> elem_result (if stage then dt * b_step_ratio b else dt) stage cr i x x').
Proof.
  intros A NS NE SD. cbv zeta. unfold run_local. set (step := fun x i => _).
  pose proof (fold_frame place step places (elem_result (if stage then dt * b_step_ratio b else dt) stage cr) (elems m)) as X.
  assert (EQ : forall x i, step x i = let o := local nd rs eq b dt stage cr use_filter (m_elem m i) (d_state x i) (d_ref x i) (gather (m_elem m i) (d_st x)) (gather (m_elem m i) (d_ldg x)) in
     {| d_st := scatter nd (m_elem m i) (fst (snd o)) (d_st x); d_ldg := scatter nd (m_elem m i) (snd (snd o)) (d_ldg x); d_state := fput (d_state x) i (fst (fst o)); d_ref := fput (d_ref x) i (snd (fst o)) |}).
  { intros y i. unfold step, nd, rs, b. cbv zeta. destruct (local _ _ _ _ _ _ _ _ _ _ _ _ _) as [[st rf] [fc vf]]. reflexivity. }
  destruct (X) with (s := x) as [X1 X2]; clear X.
  - intros i y k I K. destruct (places_out i k K) as [K1 K2]. rewrite EQ. cbv zeta. set (o := local _ _ _ _ _ _ _ _ _ _ _ _ _). destruct k as [id|j]; cbn [place d_st d_ldg d_state d_ref].
    + rewrite !scatter_out by (intros f FI E; apply (K1 f FI); now rewrite E). reflexivity.
    + rewrite !fput_out by congruence. reflexivity.
  - intros i y I. rewrite EQ. cbv zeta. set (o := local _ _ _ _ _ _ _ _ _ _ _ _ _).
    assert (LR : local_result nd rs eq b (if stage then dt * b_step_ratio b else dt) stage cr (m_elem m i) (d_state y i) (d_ref y i) (gather (m_elem m i) (d_st y)) (gather (m_elem m i) (d_ldg y)) o) by (unfold o; apply local_change; try assumption; now apply elem_ready).
    assert (GA : forall v, flux_out nd rs wt (gather (m_elem m i) (scatter nd (m_elem m i) (snd (snd o)) (d_ldg y))) v = flux_out nd rs wt (snd (snd o)) v).
    { intros v. apply flux_out_ext. intros f FI. unfold gather. apply scatter_in; [now apply face_inj|exact FI]. }
    destruct LR as [L1 L2 L3 L4 L5 L6 L7]. constructor; cbn [d_st d_ldg d_state d_ref]; rewrite ?fput_in; try assumption.
    + intros v V. rewrite GA. apply L1. exact V.
    + intros D f FI. rewrite scatter_in by (try apply face_inj; assumption). now rewrite L6.
  - intros i s t s' t' I E E' [L1 L2 L3 L4 L5].
    assert (A1 : d_state s i = d_state s' i /\ d_ref s i = d_ref s' i) by (specialize (E (inr i) (or_introl eq_refl)); cbn in E; injection E; auto).
    assert (A2 : d_state t i = d_state t' i /\ d_ref t i = d_ref t' i) by (specialize (E' (inr i) (or_introl eq_refl)); cbn in E'; injection E'; auto).
    assert (A3 : forall f, (f < 2 * nd)%nat -> d_st s (e_face (m_elem m i) f) = d_st s' (e_face (m_elem m i) f) /\ d_ldg s (e_face (m_elem m i) f) = d_ldg s' (e_face (m_elem m i) f)) by (intros f FI; specialize (E _ (places_face i f FI)); cbn in E; injection E; auto).
    assert (A4 : forall f, (f < 2 * nd)%nat -> d_st t (e_face (m_elem m i) f) = d_st t' (e_face (m_elem m i) f) /\ d_ldg t (e_face (m_elem m i) f) = d_ldg t' (e_face (m_elem m i) f)) by (intros f FI; specialize (E' _ (places_face i f FI)); cbn in E'; injection E'; auto).
    destruct A1 as [A1 A1'], A2 as [A2 A2'].
    assert (G1 : forall v, flux_out nd rs wt (gather (m_elem m i) (d_st s)) v = flux_out nd rs wt (gather (m_elem m i) (d_st s')) v) by (intros; apply flux_out_ext; intros; unfold gather; now apply A3).
    assert (G2 : forall v, flux_out nd rs wt (gather (m_elem m i) (d_ldg t)) v = flux_out nd rs wt (gather (m_elem m i) (d_ldg t')) v) by (intros; apply flux_out_ext; intros; unfold gather; now apply A4).
    constructor.
    + intros v V. rewrite <- A1, <- A1', <- A2, <- A2', <- G1, <- G2. now apply L1.
    + intros. rewrite <- A1, <- A2. now apply L2.
    + intros. rewrite <- A2', <- G1. now apply L3.
    + intros. rewrite <- A1', <- A2'. now apply L4.
    + intros D f FI. rewrite <- (proj2 (A3 f FI)), <- (proj2 (A4 f FI)). now apply L5.
  - exact places_nodup.
  - split; [|exact X2]. intros id I. specialize (X1 (inl id) (places_face_out id I)). cbn in X1. now injection X1 as -> ->.
Qed.
Lemma run_reconcile_spec dt (cr use_filter : bool) x : additive eq ->
  let x' := run_reconcile m eq dt cr use_filter (elems m) x in
  (forall id, ~ In id (inner_faces m) -> d_st x' id = d_st x id) /\ d_ldg x' = d_ldg x /\
  (forall i, In i (elems m) -> (forall v, (v < n_update eq)%nat -> amount nd rs wt (m_elem m i) (fun k => if cr then d_ref x' i k - d_ref x i k else d_state x' i k - d_state x i k) v =
      dt * (e_size (m_elem m i) ^ (nd - 1) * - flux_out nd rs wt (gather (m_elem m i) (d_ldg x)) v)) /\ (cr = true -> d_state x' i = d_state x i) /\ (cr = false -> d_ref x' i = d_ref x i)).
Proof.
  intros A. cbv zeta. unfold run_reconcile. set (step := fun x i => _).
  assert (EQ : forall x i, step x i = let o := reconcile nd rs eq b dt cr use_filter (m_elem m i) (d_state x i) (d_ref x i) (gather (m_elem m i) (d_st x)) (gather (m_elem m i) (d_ldg x)) in
     {| d_st := scatter nd (m_elem m i) (snd o) (d_st x); d_ldg := d_ldg x; d_state := fput (d_state x) i (fst (fst o)); d_ref := fput (d_ref x) i (snd (fst o)) |}).
  { intros y i. unfold step, nd, rs, b. cbv zeta. destruct (reconcile _ _ _ _ _ _ _ _ _ _ _ _) as [[st rf] fc]. reflexivity. }
  assert (LD : forall l y, d_ldg (fold_left step l y) = d_ldg y) by (induction l as [|i l IH]; intros y; [reflexivity|]; cbn [fold_left]; rewrite IH, EQ; reflexivity).
  pose (Q := fun i (s t : data) => (forall v, (v < n_update eq)%nat -> amount nd rs wt (m_elem m i) (fun k => if cr then d_ref t i k - d_ref s i k else d_state t i k - d_state s i k) v =
      dt * (e_size (m_elem m i) ^ (nd - 1) * - flux_out nd rs wt (gather (m_elem m i) (d_ldg s)) v)) /\ (cr = true -> d_state t i = d_state s i) /\ (cr = false -> d_ref t i = d_ref s i)).
  pose proof (fold_frame place step places Q (elems m)) as X.
  destruct (X) with (s := x) as [X1 X2]; clear X.
  - intros i y k I K. destruct (places_out i k K) as [K1 K2]. rewrite EQ. cbv zeta. set (o := reconcile _ _ _ _ _ _ _ _ _ _ _ _). destruct k as [id|j]; cbn [place d_st d_ldg d_state d_ref].
    + rewrite !scatter_out by (intros f FI E; apply (K1 f FI); now rewrite E). reflexivity.
    + rewrite !fput_out by congruence. reflexivity.
  - intros i y I. unfold Q. rewrite EQ. cbv zeta. cbn [d_st d_ldg d_state d_ref]. rewrite !fput_in. apply reconcile_change; try assumption. now apply elem_ready.
  - intros i s t s' t' I E E' (L1 & L2 & L3).
    assert (A1 : d_state s i = d_state s' i /\ d_ref s i = d_ref s' i) by (specialize (E (inr i) (or_introl eq_refl)); cbn in E; injection E; auto).
    assert (A2 : d_state t i = d_state t' i /\ d_ref t i = d_ref t' i) by (specialize (E' (inr i) (or_introl eq_refl)); cbn in E'; injection E'; auto).
    assert (A3 : forall f, (f < 2 * nd)%nat -> d_st s (e_face (m_elem m i) f) = d_st s' (e_face (m_elem m i) f) /\ d_ldg s (e_face (m_elem m i) f) = d_ldg s' (e_face (m_elem m i) f)) by (intros f FI; specialize (E _ (places_face i f FI)); cbn in E; injection E; auto).
    destruct A1 as [A1 A1'], A2 as [A2 A2'].
    assert (G1 : forall v, flux_out nd rs wt (gather (m_elem m i) (d_ldg s)) v = flux_out nd rs wt (gather (m_elem m i) (d_ldg s')) v) by (intros; apply flux_out_ext; intros; unfold gather; now apply A3).
    unfold Q. rewrite <- A1, <- A1', <- A2, <- A2'. repeat split; try assumption. intros v V. rewrite <- G1. now apply L1.
  - exact places_nodup.
  - split; [|split; [apply LD|exact X2]]. intros id I. specialize (X1 (inl id) (places_face_out id I)). cbn in X1. now injection X1 as -> _.
Qed.
End Mesh.
