(** Refined faces: what prolongation and restriction do to the integrals over faces. *)
From Coq Require Import Reals List Arith Lia Lra FunctionalExtensionality Permutation.
From Verif Require Import Outcome RSum Tensor_Spec Tensor_Proofs Row_Model Row_Spec Row_Proofs Connection_Model Quad_Model Quad_Spec Quad_Proofs Quad_Proofs2 Spatial_Model Spatial_Spec Spatial_Proofs Spatial_Proofs2 Spatial_Proofs3.
Import ListNotations.
Local Open Scope R_scope.

Definition halves (rs : nat) (b : basis) : Prop :=
  (forall half r, (half < 2)%nat -> rsum rs (fun i => b_weight b i * mat_vec rs (b_restrict b half) r i) = 1 / 2 * rsum rs (fun i => b_weight b i * r i)) /\
  (forall r, rsum rs (fun i => b_weight b i * mat_vec rs (b_prolong b 0%nat) r i) + rsum rs (fun i => b_weight b i * mat_vec rs (b_prolong b 1%nat) r i) = 2 * rsum rs (fun i => b_weight b i * r i)).
Lemma quad1_scale n rs w a c : quad1 n rs w (fun q => a q * c) = c * quad1 n rs w a.
Proof. unfold quad1. rewrite <- rsum_scal. apply rsum_ext. intros. ring. Qed.
Lemma half_of_lt nd str k i : (half_of nd str k i < 2)%nat. Proof. apply Nat.mod_upper_bound. lia. Qed.
Lemma restrict_dims nd rs b str k a : (0 < rs)%nat -> halves rs b ->
  quad1 (nd - 1) rs (b_weight b) (face_dims nd rs str (fun x => x / (1 + INR (Nat.b2n true))) (b_restrict b) k a) = (1 / 2) ^ (nd - 1) * quad1 (nd - 1) rs (b_weight b) a.
Proof.
  intros R [H _]. unfold face_dims. apply (loop_inv (fun n c => quad1 (nd - 1) rs (b_weight b) c = (1 / 2) ^ n * quad1 (nd - 1) rs (b_weight b) a)); [cbn; ring|].
  intros id c I E. cbn [pow]. rewrite Rmult_assoc, <- E. destruct (str id).
  - unfold Rdiv at 1. rewrite quad1_scale. cbn [Nat.b2n INR]. field.
  - rewrite (face_rows_quad nd rs (b_weight b) id _ c (1 / 2)); [reflexivity|assumption|assumption|]. intros r. apply H, half_of_lt.
Qed.
Lemma prolong_dims nd rs b str a : (0 < rs)%nat -> (1 <= nd <= 3)%nat -> halves rs b ->
  rsum (n_fine nd str) (fun k => (1 / 2) ^ (nd - 1) * quad1 (nd - 1) rs (b_weight b) (face_dims nd rs str (fun x => x * (1 + INR (Nat.b2n true))) (b_prolong b) k a)) = quad1 (nd - 1) rs (b_weight b) a.
Proof.
  intros R N [_ H]. rewrite rsum_scal. set (Q := quad1 (nd - 1) rs (b_weight b)).
  assert (D : forall id c, (id < nd - 1)%nat -> Q (face_rows nd rs (rs ^ (nd - 2 - id)) (b_prolong b 0%nat) c) + Q (face_rows nd rs (rs ^ (nd - 2 - id)) (b_prolong b 1%nat) c) = 2 * Q c) by (intros; now apply face_rows_halves).
  assert (T : forall c, Q (fun q => c q * (1 + INR (Nat.b2n true))) = 2 * Q c) by (intros; unfold Q; rewrite quad1_scale; cbn; ring).
  clearbody Q. clear H. unfold face_dims, n_fine, half_of.
  destruct nd as [|[|[|[|nd]]]]; try lia.
  - cbn. ring.
  - cbn [Nat.sub]. specialize (D 0%nat). cbn [Nat.sub] in D. rewrite loop_S, loop_0. destruct (str 0%nat) eqn:E0; cbn [Nat.b2n Nat.add Nat.pow Nat.mul Nat.div Nat.divmod fst rsum].
    + rewrite loop_S, loop_0, E0, T. cbn [pow]. lra.
    + rewrite !loop_S, !loop_0, E0. cbn [Nat.div Nat.divmod fst Nat.modulo Nat.sub snd]. cbn [pow Nat.pow] in *. specialize (D a ltac:(lia)). lra.
  - cbn [Nat.sub]. pose proof (D 0%nat) as D0. pose proof (D 1%nat) as D1. cbn [Nat.sub] in D0, D1. clear D. rewrite !loop_S, !loop_0.
    destruct (str 0%nat) eqn:E0, (str 1%nat) eqn:E1; cbn [Nat.b2n Nat.add Nat.pow Nat.mul Nat.div Nat.divmod fst rsum]; rewrite !loop_S, !loop_0, ?E0, ?E1; cbn [Nat.div Nat.divmod fst Nat.modulo Nat.sub snd Nat.pow Nat.mul Nat.add]; cbn [Nat.pow Nat.mul Nat.add] in D0, D1.
    + rewrite !T. cbn [pow]. lra.
    + specialize (D1 (fun q => a q * (1 + INR (Nat.b2n true)))). rewrite T in D1. specialize (D1 ltac:(lia)). cbn [pow Nat.b2n] in *. lra.
    + rewrite !T. specialize (D0 a ltac:(lia)). cbn [pow]. lra.
    + pose proof (D1 (face_rows 3 rs (rs * 1) (b_prolong b 0%nat) a) ltac:(lia)) as X. pose proof (D1 (face_rows 3 rs (rs * 1) (b_prolong b 1%nat) a) ltac:(lia)) as Y. specialize (D0 a ltac:(lia)). cbn [pow]. lra.
Qed.

(** [Restrict_refined] *)
Lemma quad_add_var n rs w x c v v' : (0 < rs)%nat ->
  quad n rs w (loop (rs ^ n) (fun q c => put c (v * rs ^ n + q)%nat (c (v * rs ^ n + q)%nat + x q)) c) v' = quad n rs w c v' + (if (v' =? v)%nat then quad1 n rs w x else 0).
Proof.
  intros R. unfold quad, quad1. destruct (Nat.eqb_spec v' v) as [->|N].
  - rewrite <- rsum_plus. apply rsum_ext. intros q Q. rewrite (loop_put_in (rs ^ n) (fun q => v * rs ^ n + q)%nat (fun q y => y + x q)); [ring|intros; lia|exact Q].
  - rewrite Rplus_0_r. apply rsum_ext. intros q Q. rewrite (loop_put_out (rs ^ n) (fun q => v * rs ^ n + q)%nat (fun q y => y + x q)); [reflexivity|]. intros i I E. apply flat_inj in E; lia.
Qed.
Lemma restrict_refined_other nd rs n_var b scl coarse fine str st id : id <> coarse -> (forall k, (k < n_fine nd str)%nat -> id <> fine k) -> restrict_refined nd rs n_var b scl coarse fine str st id = st id.
Proof.
  intros C F. unfold restrict_refined. apply (loop_inv (fun _ s => s id = st id)); [now rewrite fput_out|]. intros k s K <-. apply (loop_inv (fun _ t => t id = s id)); [reflexivity|]. intros v t V <-.
  rewrite !fput_out by (try apply F; assumption). reflexivity.
Qed.
Lemma restrict_refined_quad nd rs n_var b coarse fine str st v : (0 < rs)%nat -> halves rs b -> (forall k, (k < n_fine nd str)%nat -> coarse <> fine k) ->
  (forall k l, (k < n_fine nd str)%nat -> (l < n_fine nd str)%nat -> fine k = fine l -> k = l) -> (v < n_var)%nat ->
  quad (nd - 1) rs (b_weight b) (restrict_refined nd rs n_var b true coarse fine str st coarse) v = rsum (n_fine nd str) (fun k => (1 / 2) ^ (nd - 1) * quad (nd - 1) rs (b_weight b) (st (fine k)) v).
Proof.
  intros R HV C J V. set (nfq := (rs ^ (nd - 1))%nat). assert (NQ : (0 < nfq)%nat) by now apply pow_pos'.
  set (qd := fun a v => quad (nd - 1) rs (b_weight b) a v). set (h := (1 / 2) ^ (nd - 1)).
  set (P := fun n (s : nat -> arr) => (forall k, (n <= k < n_fine nd str)%nat -> s (fine k) = st (fine k)) /\ forall v, (v < n_var)%nat -> qd (s coarse) v = rsum n (fun k => h * qd (st (fine k)) v)).
  unfold restrict_refined. fold nfq. match goal with |- context [loop ?n ?body ?s] => assert (L : P n (loop n body s)); [apply (loop_inv P)|] end.
  - split.
    + intros k K. rewrite fput_out by (apply not_eq_sym, C; lia). reflexivity.
    + intros u U. rewrite fput_in. unfold qd, quad. cbn [rsum]. rewrite (rsum_ext _ _ (fun _ => 0)); [apply rsum_0|]. intros q Q. fold nfq in Q |- *. destruct (Nat.ltb_spec (u * nfq + q) (n_var * nfq)); [ring|nia].
  - intros k s K (A & B).
    set (P2 := fun m (t : nat -> arr) => (forall id, id <> coarse -> id <> fine k -> t id = s id) /\
      (forall u, (u < m)%nat -> qd (t coarse) u = qd (s coarse) u + h * qd (s (fine k)) u) /\ (forall u, (m <= u)%nat -> qd (t coarse) u = qd (s coarse) u /\ qd (t (fine k)) u = qd (s (fine k)) u)).
    match goal with |- P _ (loop ?n ?body ?s) => assert (L2 : P2 n (loop n body s)); [apply (loop_inv P2)|] end.
    + split; [intros; reflexivity|]. split; [intros; lia|intros; split; reflexivity].
    + intros u t U (D & E & F). cbv zeta. set (x := face_dims nd rs str _ _ _ _).
      assert (X : quad1 (nd - 1) rs (b_weight b) x = h * qd (t (fine k)) u) by (unfold x, h, qd; now rewrite restrict_dims).
      split; [intros id I1 I2; rewrite !fput_out by assumption; now apply D|]. rewrite !fput_in. rewrite !(fput_out _ (fine k) _ coarse) by now apply C. rewrite !(fput_out _ coarse _ (fine k)) by (apply not_eq_sym; now apply C). rewrite !fput_in.
      assert (EC : forall u', qd (loop nfq (fun q c => put c (u * nfq + q)%nat (c (u * nfq + q)%nat + put_var nfq u x (t (fine k)) (u * nfq + q)%nat)) (t coarse)) u' = qd (t coarse) u' + (if (u' =? u)%nat then h * qd (t (fine k)) u else 0)).
      { intros u'. unfold qd at 1. rewrite (loop_ext nfq _ (fun q c => put c (u * nfq + q)%nat (c (u * nfq + q)%nat + x q))).
        - unfold nfq. rewrite quad_add_var by assumption. unfold qd. destruct (Nat.eqb_spec u' u); [now rewrite X|reflexivity].
        - intros q c Q. unfold put_var. rewrite flat_div, flat_mod, Nat.eqb_refl by exact Q. reflexivity. }
      assert (EF : forall u', qd (put_var nfq u x (t (fine k))) u' = if (u' =? u)%nat then h * qd (t (fine k)) u else qd (t (fine k)) u') by (intros u'; unfold qd at 1, nfq; rewrite quad_put_var by assumption; destruct (Nat.eqb_spec u' u); [exact X|reflexivity]).
      split.
      * intros u' U'. rewrite EC. destruct (Nat.eqb_spec u' u) as [->|N].
        -- destruct (F u) as [F1 F2]; [lia|]. now rewrite F1, F2.
        -- rewrite E by lia. ring.
      * intros u' U'. rewrite EC, EF. destruct (Nat.eqb_spec u' u) as [->|N]; [lia|]. rewrite Rplus_0_r. apply F. lia.
    + destruct L2 as (D & E & _). split.
      * intros l L. rewrite D; [apply A; lia|apply not_eq_sym, C; lia|intros Z; apply J in Z; lia].
      * intros u U. cbn [rsum]. rewrite E, B, A by lia. reflexivity.
  - now apply L.
Qed.

(** [Prolong_refined] *)
Lemma prolong_refined_other nd rs n_var b scl coarse fine str st id : (forall k, (k < n_fine nd str)%nat -> id <> fine k) -> prolong_refined nd rs n_var b scl coarse fine str st id = st id.
Proof.
  intros F. unfold prolong_refined. apply (loop_inv (fun _ s => s id = st id)); [reflexivity|]. intros k s K <-. apply (loop_inv (fun _ t => t id = s id)); [reflexivity|]. intros v t V <-. now rewrite fput_out by now apply F.
Qed.
Lemma prolong_refined_quad nd rs n_var b coarse fine str st v : (0 < rs)%nat -> (1 <= nd <= 3)%nat -> halves rs b -> (forall k, (k < n_fine nd str)%nat -> coarse <> fine k) ->
  (forall k l, (k < n_fine nd str)%nat -> (l < n_fine nd str)%nat -> fine k = fine l -> k = l) -> (v < n_var)%nat ->
  rsum (n_fine nd str) (fun k => (1 / 2) ^ (nd - 1) * quad (nd - 1) rs (b_weight b) (prolong_refined nd rs n_var b true coarse fine str st (fine k)) v) = quad (nd - 1) rs (b_weight b) (st coarse) v.
Proof.
  intros R N HV C J V. set (nfq := (rs ^ (nd - 1))%nat). assert (NQ : (0 < nfq)%nat) by now apply pow_pos'.
  rewrite quad_var. fold nfq. rewrite <- (prolong_dims nd rs b str) by assumption. apply rsum_ext. intros k K. f_equal.
  set (x := fun k v => face_dims nd rs str (fun y => y * (1 + INR (Nat.b2n true))) (b_prolong b) k (var_of nfq v (st coarse))).
  set (P := fun n (s : nat -> arr) => s coarse = st coarse /\ forall k v, (k < n)%nat -> (k < n_fine nd str)%nat -> (v < n_var)%nat -> quad (nd - 1) rs (b_weight b) (s (fine k)) v = quad1 (nd - 1) rs (b_weight b) (x k v)).
  unfold prolong_refined. fold nfq. match goal with |- context [loop ?n ?body ?s] => assert (L : P n (loop n body s)); [apply (loop_inv P)|] end.
  - split; [reflexivity|intros; lia].
  - clear k K. intros k s K (A & B).
    set (P2 := fun m (t : nat -> arr) => t coarse = st coarse /\ (forall id, id <> fine k -> t id = s id) /\ (forall u, (u < m)%nat -> quad (nd - 1) rs (b_weight b) (t (fine k)) u = quad1 (nd - 1) rs (b_weight b) (x k u))).
    match goal with |- P _ (loop ?n ?body ?s) => assert (L2 : P2 n (loop n body s)); [apply (loop_inv P2)|] end.
    + split; [exact A|]. split; [intros; reflexivity|intros; lia].
    + intros u t U (D & E & F). split; [rewrite fput_out by (now apply C); exact D|]. split; [intros id I; rewrite fput_out by (exact I); now apply E|].
      intros u' U'. rewrite fput_in, D. fold (x k u). unfold nfq. rewrite quad_put_var by assumption. destruct (Nat.eqb_spec u' u) as [->|NE]; [reflexivity|]. apply F. lia.
    + destruct L2 as (D & E & F). split; [exact D|]. intros l u L L' U. destruct (Nat.eq_dec l k) as [->|NE]; [now apply F|]. rewrite E by (intros Z; apply J in Z; lia). apply B; lia.
  - now apply L.
Qed.
