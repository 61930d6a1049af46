(** Faces in uniform flow: permutations, connections, refined faces. *)
From Coq Require Import Reals List Arith Lia Lra FunctionalExtensionality Permutation.
From Verif Require Import Outcome RSum Tensor_Spec Tensor_Proofs Row_Model Row_Spec Row_Proofs Connection_Model Basis_Spec Basis_Proofs Quad_Model Quad_Spec Quad_Proofs Spatial_Model Spatial_Spec Spatial_Proofs Spatial_Proofs2 Spatial_Proofs3 Spatial_Proofs4 Spatial_Proofs5 Free_Spec Free_Proofs1.
Import ListNotations.
Local Open Scope R_scope.

(** ** permutations *)
Lemma permute_at n_var nq pi a v q : (v < n_var)%nat -> (q < nq)%nat -> permute n_var nq pi a (v * nq + q)%nat = a (v * nq + pi q)%nat.
Proof. intros V Q. unfold permute. destruct (Nat.ltb_spec (v * nq + q) (n_var * nq)); [now rewrite flat_div, flat_mod|nia]. Qed.
(** what a permutation of the points of a face is: the same for all variables, its own inverse *)
Definition shuffles (nq : nat) (g : nat -> arr -> arr) (pi : nat -> nat) : Prop :=
  (forall q, (q < nq)%nat -> (pi q < nq)%nat /\ pi (pi q) = q) /\ forall n a v q, (v < n)%nat -> (q < nq)%nat -> g n a (v * nq + q)%nat = a (v * nq + pi q)%nat.
Lemma shuffles_permute nq pi : (forall q, (q < nq)%nat -> (pi q < nq)%nat /\ pi (pi q) = q) -> shuffles nq (fun n => permute n nq pi) pi.
Proof. intros H. split; [exact H|]. intros. now apply permute_at. Qed.
Lemma shuffles_id nq : shuffles nq (fun _ a => a) (fun q => q).
Proof. split; auto. Qed.
Lemma one_weight rs : symmetric rs (fun _ => 1). Proof. intros i I. reflexivity. Qed.
Lemma transpose_shuffles nd rs d : (0 < rs)%nat -> exists pi, shuffles (rs ^ (nd - 1)) (fun n => fp_transpose nd rs n d) pi.
Proof.
  intros R. unfold fp_transpose. destruct (transpose d); [|eexists; apply shuffles_id]. destruct (Nat.eqb_spec nd 3) as [->|]; [|eexists; apply shuffles_id].
  eexists. apply shuffles_permute. intros q Q. destruct (ok_transpose rs (fun _ => 1) R q Q) as (A & B & _). now split.
Qed.
Lemma flip_shuffles nd rs d : (0 < rs)%nat -> exists pi, shuffles (rs ^ (nd - 1)) (fun n => fp_flip nd rs n d) pi.
Proof.
  intros R. unfold fp_flip. destruct (flip_tangential d); [|eexists; apply shuffles_id]. destruct (Nat.eqb_spec nd 3) as [->|].
  - destruct (xorb _ _); eexists; apply shuffles_permute; intros q Q.
    + destruct (ok_colwise rs (fun _ => 1) R (one_weight rs) q Q) as (A & B & _). now split.
    + destruct (ok_rowwise rs (fun _ => 1) R (one_weight rs) q Q) as (A & B & _). now split.
  - destruct (Nat.eqb_spec nd 2) as [->|]; [|eexists; apply shuffles_id]. eexists. apply shuffles_permute. intros q Q. destruct (ok_colwise_1 rs (fun _ => 1) R (one_weight rs) q Q) as (A & B & _). now split.
Qed.
Lemma match_index nd rs d q : (0 < rs)%nat -> (q < rs ^ (nd - 1))%nat -> exists p, (p < rs ^ (nd - 1))%nat /\ forall n a v, (v < n)%nat -> fp_match nd rs n d a (v * rs ^ (nd - 1) + q)%nat = a (v * rs ^ (nd - 1) + p)%nat.
Proof.
  intros R Q. destruct (transpose_shuffles nd rs d R) as (t & T1 & T2), (flip_shuffles nd rs d R) as (f & F1 & F2). exists (t (f q)). destruct (F1 q Q) as [L _]. split; [now apply T1|]. intros n a v V. unfold fp_match. rewrite F2 by assumption. now apply T2.
Qed.
Lemma restore_index nd rs d q : (0 < rs)%nat -> (q < rs ^ (nd - 1))%nat -> exists p, (p < rs ^ (nd - 1))%nat /\
  (forall n a v, (v < n)%nat -> fp_restore nd rs n d a (v * rs ^ (nd - 1) + q)%nat = a (v * rs ^ (nd - 1) + p)%nat) /\
  (forall n a v, (v < n)%nat -> fp_match nd rs n d a (v * rs ^ (nd - 1) + p)%nat = a (v * rs ^ (nd - 1) + q)%nat).
Proof.
  intros R Q. destruct (transpose_shuffles nd rs d R) as (t & T1 & T2), (flip_shuffles nd rs d R) as (f & F1 & F2). destruct (T1 q Q) as [L E]. destruct (F1 (t q) L) as [L' E']. exists (f (t q)). split; [exact L'|]. split; intros n a v V.
  - unfold fp_restore. rewrite T2 by assumption. now apply F2.
  - unfold fp_match. rewrite F2 by assumption. rewrite E'. rewrite T2 by assumption. now rewrite E.
Qed.

(** ** connections *)
Section Connection.
Variables (nd rs : nat) (eq : pde) (n : nat) (u ue : nat -> R) (f : nat -> nat -> R).
Hypotheses (R : (0 < rs)%nat) (C : carried nd eq n u ue f) (HC : has_convection eq = true).
Let nfq := (rs ^ (nd - 1))%nat.
Lemma take_agrees a q : filled (n_extrap eq) nfq ue a -> (q < nfq)%nat -> agrees (n_extrap eq) (at_point nfq (take_vars (n_extrap eq * nfq) a) q) ue.
Proof. intros FI Q v V. unfold at_point, take_vars. destruct (Nat.ltb_spec (v * nfq + q) (n_extrap eq * nfq)); [now apply FI|nia]. Qed.
Lemma facing_agrees c st q : filled (n_extrap eq) nfq ue (st (c_face c true)) -> (q < nfq)%nat -> agrees (n_extrap eq) (at_point nfq (facing nd rs eq c st) q) ue.
Proof.
  intros FI Q. unfold facing. fold nfq. destruct (c_deformed c); [|now apply take_agrees]. destruct (match_index nd rs (c_dir c) q R Q) as (p & P & E). intros v V. unfold at_point, nfq. rewrite E by exact V. now apply (take_agrees _ p FI P).
Qed.
Lemma flux_uniform normal s0 s1 v : agrees (n_extrap eq) s0 ue -> agrees (n_extrap eq) s1 ue -> (v < n_update eq)%nat -> numerical_flux nd eq normal s0 s1 v = rsum nd (fun j => normal j * f j v).
Proof.
  intros A0 A1 V. unfold numerical_flux. rewrite !(ca_face _ _ _ _ _ _ C) by assumption. rewrite (ca_update _ _ _ _ _ _ C s0), (ca_update _ _ _ _ _ _ C s1) by assumption. field.
Qed.
Lemma neighbor_uniform c st ldg (fn : nat -> arr) : c_face c false <> c_face c true ->
  (forall side, filled (n_extrap eq) nfq ue (st (c_face c side))) ->
  (forall j q, (j < nd)%nat -> (q < nfq)%nat -> fn (c_face c false) (j * nfq + q)%nat = side_sign c false * con_normal nd nfq c q j) ->
  (forall j q, (j < nd)%nat -> (q < nfq)%nat -> (if c_deformed c then fp_match nd rs nd (c_dir c) (fn (c_face c true)) else fn (c_face c true)) (j * nfq + q)%nat = side_sign c true * con_normal nd nfq c q j) ->
  forall side v q, (v < n_update eq)%nat -> (q < nfq)%nat -> fst (neighbor nd rs eq c (st, ldg)) (c_face c side) (v * nfq + q)%nat = rsum nd (fun j => fn (c_face c side) (j * nfq + q)%nat * f j v).
Proof.
  intros NE FI C0 C1 side v q V Q. destruct (neighbor_spec nd rs eq c st ldg R NE) as [_ _ _ S0 S1 _ _]. fold nfq in S0, S1.
  assert (FL : forall q, (q < nfq)%nat -> shared_flux nd rs eq c st q v = rsum nd (fun j => con_normal nd nfq c q j * f j v)).
  { intros p P. apply flux_uniform; [now apply take_agrees|now apply facing_agrees|exact V]. }
  destruct side.
  - destruct (S1 HC) as (a & -> & AV). unfold given_back. fold nfq. destruct (Nat.ltb_spec (v * nfq + q) (n_update eq * nfq)); [|nia].
    pose proof (ca_size _ _ _ _ _ _ C) as SZ. destruct (c_deformed c) eqn:DE.
    + destruct (restore_index nd rs (c_dir c) q R Q) as (p & P & E1 & E2). unfold nfq at 1. rewrite E1 by lia. fold nfq. rewrite AV, FL by assumption. rewrite <- rsum_scal. apply rsum_ext. intros j J. rewrite <- Rmult_assoc, <- C1 by assumption. f_equal. apply E2. exact J.
    + rewrite AV, FL by assumption. rewrite <- rsum_scal. apply rsum_ext. intros j J. rewrite <- Rmult_assoc, <- C1 by assumption. reflexivity.
  - rewrite (S0 HC v q V Q), FL by exact Q. rewrite <- rsum_scal. apply rsum_ext. intros j J. now rewrite C0, Rmult_assoc.
Qed.
End Connection.

(** ** refined faces *)
Definition dims (nd rs : nat) (str : nat -> bool) (by_ : R -> R) (mats : nat -> nat -> nat -> R) (k n : nat) (a : arr) : arr :=
  loop n (fun i_dim a => if str i_dim then fun q => by_ (a q) else face_rows nd rs (rs ^ (nd - 2 - i_dim)) (mats (half_of nd str k i_dim)) a) a.
Lemma dims_S nd rs str by_ mats k n a : dims nd rs str by_ mats k (S n) a =
  if str n then fun q => by_ (dims nd rs str by_ mats k n a q) else face_rows nd rs (rs ^ (nd - 2 - n)) (mats (half_of nd str k n)) (dims nd rs str by_ mats k n a).
Proof. unfold dims. now rewrite loop_S. Qed.
(** an invariant of all points of a face *)
Lemma face_dims_ind nd rs str by_ mats k (P : nat -> arr -> Prop) a : P 0%nat a ->
  (forall i a, (i < nd - 1)%nat -> P i a -> str i = true -> P (S i) (fun q => by_ (a q))) ->
  (forall i a, (i < nd - 1)%nat -> P i a -> str i = false -> P (S i) (face_rows nd rs (rs ^ (nd - 2 - i)) (mats (half_of nd str k i)) a)) -> P (nd - 1)%nat (face_dims nd rs str by_ mats k a).
Proof. intros H0 H1 H2. unfold face_dims. apply (loop_inv P); [exact H0|]. intros i c I PC. destruct (str i) eqn:E; [now apply H1|now apply H2]. Qed.
Lemma face_rows_at nd rs id q : (0 < rs)%nat -> (id < nd - 1)%nat -> (q < rs ^ (nd - 1))%nat ->
  exists g j, (j < rs)%nat /\ (forall i, (i < rs)%nat -> (g i < rs ^ (nd - 1))%nat) /\ forall m a, face_rows nd rs (rs ^ (nd - 2 - id)) m a q = mat_vec rs m (fun i => a (g i)) j.
Proof.
  intros R I Q. destruct (in_flat_qpoints (nd - 1) rs id q R I Q) as (f & j & FL & J & <-). replace (nd - 1 - 1)%nat with (nd - 2)%nat in FL by lia. exists (fun i => i_qpoint (nth_row (nd - 1) rs id f) i), j. split; [exact J|]. split.
  - intros i L. apply qpoint_lt; try assumption. replace (nd - 1 - 1)%nat with (nd - 2)%nat by lia. exact FL.
  - intros m' a'. now rewrite face_rows_value.
Qed.
Lemma face_dims_const nd rs str mats k a c : (0 < rs)%nat -> (forall h i, (h < 2)%nat -> (i < rs)%nat -> rsum rs (mats h i) = 1) -> (forall q, (q < rs ^ (nd - 1))%nat -> a q = c) ->
  forall q, (q < rs ^ (nd - 1))%nat -> face_dims nd rs str (fun x => x * (1 + INR (Nat.b2n false))) mats k a q = c.
Proof.
  intros R U H. apply (face_dims_ind nd rs str _ mats k (fun _ a => forall q, (q < rs ^ (nd - 1))%nat -> a q = c)); [exact H| |].
  - intros i a' I P _ q Q. rewrite P by exact Q. cbn. ring.
  - intros i a' I P _ q Q. destruct (face_rows_at nd rs i q R I Q) as (g & j & J & G & E). rewrite E. unfold mat_vec. rewrite (rsum_ext rs _ (fun l => c * mats (half_of nd str k i) j l)) by (intros l L; rewrite P by (now apply G); ring). rewrite rsum_scal, U by (try apply half_of_lt; exact J). ring.
Qed.
Lemma face_dims_sum nd rs str s mats k m (a : arr) (aj : nat -> arr) (c : nat -> R) : (0 < rs)%nat -> (forall q, (q < rs ^ (nd - 1))%nat -> a q = rsum m (fun j => aj j q * c j)) ->
  forall q, (q < rs ^ (nd - 1))%nat -> face_dims nd rs str (fun x => x * s) mats k a q = rsum m (fun j => face_dims nd rs str (fun x => x * s) mats k (aj j) q * c j).
Proof.
  intros R H. change (face_dims nd rs str (fun x => x * s) mats k) with (dims nd rs str (fun x => x * s) mats k (nd - 1)).
  enough (G : forall n, (n <= nd - 1)%nat -> forall q, (q < rs ^ (nd - 1))%nat -> dims nd rs str (fun x => x * s) mats k n a q = rsum m (fun j => dims nd rs str (fun x => x * s) mats k n (aj j) q * c j)) by (apply G; lia).
  induction n as [|n IH]; intros L q Q; [now apply H|]. specialize (IH ltac:(lia)). rewrite dims_S. rewrite (rsum_ext m _ (fun j => (if str n then fun q => dims nd rs str (fun x => x * s) mats k n (aj j) q * s else face_rows nd rs (rs ^ (nd - 2 - n)) (mats (half_of nd str k n)) (dims nd rs str (fun x => x * s) mats k n (aj j))) q * c j)) by (intros j J; now rewrite dims_S).
  destruct (str n).
  - rewrite IH by exact Q. rewrite <- rsum_scal_r. apply rsum_ext. intros. ring.
  - destruct (face_rows_at nd rs n q R ltac:(lia) Q) as (g & j & J & G & E). rewrite E. rewrite (rsum_ext m _ (fun l => mat_vec rs (mats (half_of nd str k n)) (fun i => dims nd rs str (fun x => x * s) mats k n (aj l) (g i)) j * c l)) by (intros; now rewrite E).
    unfold mat_vec. rewrite (rsum_ext rs _ (fun i => rsum m (fun l => mats (half_of nd str k n) j i * (dims nd rs str (fun x => x * s) mats k n (aj l) (g i) * c l)))) by (intros i I; rewrite IH by (now apply G); now rewrite rsum_scal).
    rewrite rsum_swap. apply rsum_ext. intros l _. rewrite <- rsum_scal_r. apply rsum_ext. intros. ring.
Qed.
Lemma half_by : (fun x : R => x / (1 + INR (Nat.b2n true))) = (fun x => x / 2).
Proof. apply functional_extensionality. intros x. cbn. f_equal. Qed.
Lemma restrict_refined_at nd rs n_var b scl coarse fine str st v q : (0 < rs)%nat -> (forall k, (k < n_fine nd str)%nat -> coarse <> fine k) ->
  (forall k l, (k < n_fine nd str)%nat -> (l < n_fine nd str)%nat -> fine k = fine l -> k = l) -> (v < n_var)%nat -> (q < rs ^ (nd - 1))%nat ->
  restrict_refined nd rs n_var b scl coarse fine str st coarse (v * rs ^ (nd - 1) + q)%nat = rsum (n_fine nd str) (fun k => face_dims nd rs str (fun x => x / (1 + INR (Nat.b2n scl))) (b_restrict b) k (var_of (rs ^ (nd - 1)) v (st (fine k))) q).
Proof.
  intros R C J V Q. set (nfq := (rs ^ (nd - 1))%nat) in *. assert (NQ : (0 < nfq)%nat) by now apply pow_pos'.
  set (x := fun k v => face_dims nd rs str (fun x => x / (1 + INR (Nat.b2n scl))) (b_restrict b) k (var_of nfq v (st (fine k)))).
  set (P := fun n (s : nat -> arr) => (forall k, (n <= k < n_fine nd str)%nat -> s (fine k) = st (fine k)) /\ forall v q, (v < n_var)%nat -> (q < nfq)%nat -> s coarse (v * nfq + q)%nat = rsum n (fun k => x k v q)).
  unfold restrict_refined. fold nfq. match goal with |- context [loop ?n ?body ?s] => assert (L : P n (loop n body s)); [apply (loop_inv P)|] end.
  - split.
    + intros k K. rewrite fput_out by (apply not_eq_sym, C; lia). reflexivity.
    + intros w p W PQ. rewrite fput_in. cbn [rsum]. destruct (Nat.ltb_spec (w * nfq + p) (n_var * nfq)); [reflexivity|nia].
  - intros k s K (A & B).
    set (P2 := fun m (t : nat -> arr) => (forall id, id <> coarse -> id <> fine k -> t id = s id) /\
      (forall w p, (w < m)%nat -> (p < nfq)%nat -> t coarse (w * nfq + p)%nat = s coarse (w * nfq + p)%nat + x k w p) /\ (forall w p, (m <= w)%nat -> (p < nfq)%nat -> t coarse (w * nfq + p)%nat = s coarse (w * nfq + p)%nat /\ t (fine k) (w * nfq + p)%nat = s (fine k) (w * nfq + p)%nat)).
    match goal with |- P _ (loop ?n ?body ?s) => assert (L2 : P2 n (loop n body s)); [apply (loop_inv P2)|] end.
    + split; [intros; reflexivity|]. split; [intros; lia|intros; split; reflexivity].
    + intros w t W (D & E & F). cbv zeta. set (y := face_dims nd rs str _ _ _ _).
      assert (X : forall p, (p < nfq)%nat -> y p = x k w p).
      { intros p PQ. unfold y, x. rewrite (A k) in F by lia. set (t1 := fun q => t (fine k) (w * nfq + q)%nat). set (s1 := var_of nfq w (st (fine k))).
        pose proof (face_dims_sum nd rs str (/ (1 + INR (Nat.b2n scl))) (b_restrict b) k 1 (var_of nfq w (t (fine k))) (fun _ => s1) (fun _ => 1) R) as H. change (fun x : RbaseSymbolsImpl.R => x * / (1 + INR (Nat.b2n scl))) with (fun x => x / (1 + INR (Nat.b2n scl))) in H. rewrite H; [cbn [rsum]; ring| |exact PQ].
        intros r RQ. cbn [rsum]. unfold var_of. rewrite (proj2 (F w r (le_n w) RQ)). unfold s1, var_of. ring. }
      split; [intros id I1 I2; rewrite !fput_out by assumption; now apply D|]. rewrite !fput_in. rewrite !(fput_out _ (fine k) _ coarse) by now apply C. rewrite !(fput_out _ coarse _ (fine k)) by (apply not_eq_sym; now apply C). rewrite !fput_in.
      set (cc := loop nfq _ (t coarse)).
      assert (C1 : forall p, (p < nfq)%nat -> cc (w * nfq + p)%nat = t coarse (w * nfq + p)%nat + x k w p).
      { intros p PQ. unfold cc. rewrite (loop_put_in nfq (fun q => (w * nfq + q)%nat) (fun q z => z + put_var nfq w y (t (fine k)) (w * nfq + q)%nat)); [|intros; lia|exact PQ]. f_equal. unfold put_var. rewrite flat_div, flat_mod, Nat.eqb_refl by exact PQ. now apply X. }
      assert (C2 : forall w' p, (p < nfq)%nat -> w' <> w -> cc (w' * nfq + p)%nat = t coarse (w' * nfq + p)%nat).
      { intros w' p PQ NE. unfold cc. rewrite (loop_put_out nfq (fun q => (w * nfq + q)%nat) (fun q z => z + put_var nfq w y (t (fine k)) (w * nfq + q)%nat)); [reflexivity|]. intros i I Z. apply flat_inj in Z; lia. }
      split.
      * intros w' p W' PQ. destruct (Nat.eq_dec w' w) as [->|NE]; [rewrite C1 by exact PQ; now rewrite (proj1 (F w p (le_n w) PQ))|]. rewrite C2 by assumption. apply E; [lia|exact PQ].
      * intros w' p W' PQ. rewrite C2 by (try exact PQ; lia). split; [apply F; [lia|exact PQ]|]. unfold put_var. rewrite flat_div by exact PQ. destruct (Nat.eqb_spec w' w); [lia|]. apply F; [lia|exact PQ].
    + destruct L2 as (D & E & _). split.
      * intros l L. rewrite D; [apply A; lia|apply not_eq_sym, C; lia|intros Z; apply J in Z; lia].
      * intros w p W PQ. cbn [rsum]. rewrite E, B by assumption. reflexivity.
  - now apply L.
Qed.
Lemma restrict_refined_value nd rs n_var b coarse fine str st v q : (0 < rs)%nat -> (forall k, (k < n_fine nd str)%nat -> coarse <> fine k) ->
  (forall k l, (k < n_fine nd str)%nat -> (l < n_fine nd str)%nat -> fine k = fine l -> k = l) -> (v < n_var)%nat -> (q < rs ^ (nd - 1))%nat ->
  restrict_refined nd rs n_var b true coarse fine str st coarse (v * rs ^ (nd - 1) + q)%nat = rsum (n_fine nd str) (fun k => face_dims nd rs str (fun x => x / 2) (b_restrict b) k (var_of (rs ^ (nd - 1)) v (st (fine k))) q).
Proof. rewrite <- half_by. apply restrict_refined_at. Qed.
Lemma prolong_refined_const nd rs n_var b coarse fine str st ue : (0 < rs)%nat -> unital rs b -> (forall k, (k < n_fine nd str)%nat -> coarse <> fine k) ->
  filled n_var (rs ^ (nd - 1)) ue (st coarse) -> forall k, (k < n_fine nd str)%nat -> filled n_var (rs ^ (nd - 1)) ue (prolong_refined nd rs n_var b false coarse fine str st (fine k)).
Proof.
  intros R [_ U] C FI k0 K0. set (nfq := (rs ^ (nd - 1))%nat) in *. assert (NQ : (0 < nfq)%nat) by now apply pow_pos'.
  set (P := fun n (s : nat -> arr) => s coarse = st coarse /\ forall k, (k < n)%nat -> filled n_var nfq ue (s (fine k))).
  unfold prolong_refined. fold nfq. match goal with |- context [loop ?n ?body ?s] => assert (L : P n (loop n body s)); [apply (loop_inv P)|] end.
  - split; [reflexivity|intros; lia].
  - intros k s K (A & B).
    set (P2 := fun m (t : nat -> arr) => t coarse = st coarse /\ (forall id, id <> fine k -> t id = s id) /\ (forall v q, (v < m)%nat -> (q < nfq)%nat -> t (fine k) (v * nfq + q)%nat = ue v)).
    match goal with |- P _ (loop ?n ?body ?s) => assert (L2 : P2 n (loop n body s)); [apply (loop_inv P2)|] end.
    + split; [exact A|]. split; [intros; reflexivity|intros; lia].
    + intros v t V (D & E & F). split; [rewrite fput_out by (now apply C); exact D|]. split; [intros id I; rewrite fput_out by (exact I); now apply E|].
      intros v' q V' Q. rewrite fput_in, D. unfold put_var. rewrite flat_div, flat_mod by exact Q. destruct (Nat.eqb_spec v' v) as [->|NE]; [|apply F; [lia|exact Q]].
      apply face_dims_const; try assumption. intros p PQ. now apply FI.
    + destruct L2 as (D & E & F). split; [exact D|]. intros l L. destruct (Nat.eq_dec (fine l) (fine k)) as [Z|NE]; [rewrite Z; exact F|]. rewrite E by exact NE. apply B. destruct (Nat.eq_dec l k) as [->|]; [contradiction|lia].
  - now apply L.
Qed.
