(** Faces in uniform viscous flow. *)
From Coq Require Import Reals List Arith Lia Lra FunctionalExtensionality Permutation.
From Verif Require Import Outcome RSum Tensor_Spec Tensor_Proofs Row_Model Row_Spec Row_Proofs Connection_Model Basis_Spec Basis_Proofs Quad_Model Quad_Spec Quad_Proofs Spatial_Model Spatial_Spec Spatial_Proofs Spatial_Proofs2 Spatial_Proofs3 Spatial_Proofs4 Spatial_Proofs5 Free_Spec Free_Proofs1 Free_Proofs2 Free_Proofs4 Visc_Spec Visc_Proofs1 Visc_Proofs2.
Import ListNotations.
Local Open Scope R_scope.

(** ** connections *)
Lemma neighbor_average nd rs eq c st ldg ue : (0 < rs)%nat -> has_diffusion eq = true -> c_face c false <> c_face c true ->
  (forall side, filled (n_extrap eq) (rs ^ (nd - 1)) ue (st (c_face c side))) ->
  forall side, filled (n_extrap eq) (rs ^ (nd - 1)) ue (snd (neighbor nd rs eq c (st, ldg)) (c_face c side)).
Proof.
  intros R HD NE FI side v q V Q. destruct (neighbor_spec nd rs eq c st ldg R NE) as [_ _ _ _ _ L0 L1]. set (nfq := (rs ^ (nd - 1))%nat) in *.
  assert (FF : forall p, (p < nfq)%nat -> facing nd rs eq c st (v * nfq + p)%nat = ue v) by (intros p P; exact (facing_agrees nd rs eq ue R c st p (FI true) P v V)).
  assert (AV : forall p, (p < nfq)%nat -> 1 / 2 * (st (c_face c false) (v * nfq + p)%nat + facing nd rs eq c st (v * nfq + p)%nat) = ue v) by (intros p P; rewrite FF, (FI false) by assumption; field).
  destruct side.
  - destruct (L1 HD) as (a & -> & E). unfold given_back. fold nfq. destruct (Nat.ltb_spec (v * nfq + q) (n_extrap eq * nfq)); [|nia]. destruct (c_deformed c).
    + destruct (restore_index nd rs (c_dir c) q R Q) as (p & P & E1 & _). unfold nfq. rewrite E1 by exact V. fold nfq. now rewrite E, AV.
    + now rewrite E, AV.
  - now rewrite (L0 HD v q V Q), AV.
Qed.
Lemma reconcile_zeros nd rs eq junk c ldg : (0 < rs)%nat -> c_face c false <> c_face c true -> (n_update eq <= n_extrap eq)%nat ->
  (forall side, zeros (n_update eq) (rs ^ (nd - 1)) (ldg (c_face c side))) ->
  forall side, zeros (n_update eq) (rs ^ (nd - 1)) (neighbor_reconcile nd rs eq junk c ldg (c_face c side)).
Proof.
  intros R NE SZ Z. set (nfq := (rs ^ (nd - 1))%nat) in *. unfold neighbor_reconcile. fold nfq.
  set (F0 := fun k => if (k <? n_update eq * nfq)%nat then ldg (c_face c false) k else junk k). set (T1 := fun k => if (k <? n_update eq * nfq)%nat then ldg (c_face c true) k else junk k).
  set (F1 := if c_deformed c then fp_match nd rs (n_extrap eq) (c_dir c) T1 else T1).
  pose (P := fun s : arr * arr => zeros (n_update eq) nfq (fst s) /\ zeros (n_update eq) nfq (snd s)).
  match goal with |- context [loop nfq ?bd ?s] => assert (L : P (loop nfq bd s)); [apply (loop_inv (fun _ => P))|] end.
  - assert (ZT : forall (g : bool) v q, (v < n_update eq)%nat -> (q < nfq)%nat -> (if g then F0 else T1) (v * nfq + q)%nat = 0).
    { intros g v q V Q. destruct g; unfold F0, T1; (destruct (Nat.ltb_spec (v * nfq + q) (n_update eq * nfq)); [now apply Z|nia]). }
    split; cbn [fst snd]; intros v q V Q; [now apply (ZT true)|]. unfold F1. destruct (c_deformed c); [|now apply (ZT false)].
    destruct (match_index nd rs (c_dir c) q R Q) as (p & PP & E). unfold nfq. rewrite E by lia. fold nfq. now apply (ZT false).
  - intros q s Q PS. apply (loop_inv (fun _ => P)); [exact PS|]. intros v [f0 f1] V [Z0 Z1]. cbn [fst snd] in *. unfold zeros, filled in Z0, Z1. split; cbn [fst snd]; intros v' q' V' Q'.
    + destruct (Nat.eq_dec (v' * nfq + q') (v * nfq + q)) as [->|X]; [rewrite put_in|rewrite put_out by exact X; now apply Z0]. rewrite Z0, Z1 by assumption. ring.
    + destruct (Nat.eq_dec (v' * nfq + q') (v * nfq + q)) as [->|X]; [rewrite put_in|rewrite put_out by exact X; now apply Z1]. rewrite Z0, Z1 by assumption. ring.
  - match type of L with P ?t => destruct t as [f0 f1] end. destruct L as [Z0 Z1]. cbn [fst snd] in Z0, Z1. cbv zeta. intros [|] v q V Q.
    + rewrite fput_in. destruct (Nat.ltb_spec (v * nfq + q) (n_update eq * nfq)); [|nia]. destruct (c_deformed c); [|now apply Z1]. destruct (restore_index nd rs (c_dir c) q R Q) as (p & PP & E1 & _). unfold nfq. rewrite E1 by lia. fold nfq. now apply Z1.
    + rewrite fput_out, fput_in by exact NE. destruct (Nat.ltb_spec (v * nfq + q) (n_update eq * nfq)); [now apply Z0|nia].
Qed.

(** ** refined faces *)
Lemma face_dims_zero nd rs str s mats k a : (0 < rs)%nat -> (forall q, (q < rs ^ (nd - 1))%nat -> a q = 0) -> forall q, (q < rs ^ (nd - 1))%nat -> face_dims nd rs str (fun x => x * s) mats k a q = 0.
Proof. intros R Z q Q. rewrite (face_dims_sum nd rs str s mats k 0 a (fun _ => a) (fun _ => 0) R); [reflexivity|exact Z|exact Q]. Qed.
Lemma prolong_zeros nd rs n_var nz b scl coarse fine str st : (0 < rs)%nat -> (nz <= n_var)%nat -> (forall k, (k < n_fine nd str)%nat -> coarse <> fine k) ->
  zeros nz (rs ^ (nd - 1)) (st coarse) -> forall k, (k < n_fine nd str)%nat -> zeros nz (rs ^ (nd - 1)) (prolong_refined nd rs n_var b scl coarse fine str st (fine k)).
Proof.
  intros R LE C FI k0 K0. set (nfq := (rs ^ (nd - 1))%nat) in *. assert (NQ : (0 < nfq)%nat) by now apply pow_pos'.
  set (P := fun n (s : nat -> arr) => s coarse = st coarse /\ forall k, (k < n)%nat -> zeros nz nfq (s (fine k))).
  unfold prolong_refined. fold nfq. match goal with |- context [loop ?n ?body ?s] => assert (L : P n (loop n body s)); [apply (loop_inv P)|] end.
  - split; [reflexivity|intros; lia].
  - intros k s K (A & B).
    set (P2 := fun m (t : nat -> arr) => t coarse = st coarse /\ (forall id, id <> fine k -> t id = s id) /\ (forall v q, (v < m)%nat -> (v < nz)%nat -> (q < nfq)%nat -> t (fine k) (v * nfq + q)%nat = 0)).
    match goal with |- P _ (loop ?n ?body ?s) => assert (L2 : P2 n (loop n body s)); [apply (loop_inv P2)|] end.
    + split; [exact A|]. split; [intros; reflexivity|intros; lia].
    + intros v t V (D & E & F). split; [rewrite fput_out by (now apply C); exact D|]. split; [intros id I; rewrite fput_out by (exact I); now apply E|].
      intros v' q V' VZ Q. rewrite fput_in, D. unfold put_var. rewrite flat_div, flat_mod by exact Q. destruct (Nat.eqb_spec v' v) as [->|NE]; [|apply F; [lia|exact VZ|exact Q]].
      apply face_dims_zero; try assumption. intros p PQ. now apply FI.
    + destruct L2 as (D & E & F). split; [exact D|]. intros l L. destruct (Nat.eq_dec (fine l) (fine k)) as [Z|NE]; [rewrite Z; intros v q V Q; apply F; (assumption || lia)|]. rewrite E by exact NE. apply B. destruct (Nat.eq_dec l k) as [->|]; [contradiction|lia].
  - now apply L.
Qed.
Lemma by_one : (fun x : R => x / (1 + INR (Nat.b2n false))) = (fun x => x).
Proof. apply functional_extensionality. intros x. cbn. field. Qed.
(** the mortar faces together give a constant back when nothing is scaled, whichever directions are stretched *)
Lemma halves_any nd rs node w ratio str a q c : (1 <= nd <= 3)%nat -> (2 <= rs)%nat -> as_lobatto rs node w -> (q < rs ^ (nd - 1))%nat -> (forall q, (q < rs ^ (nd - 1))%nat -> a q = c) ->
  rsum (n_fine nd str) (fun k => face_dims nd rs str (fun x => x) (b_restrict (basis_on rs node w ratio)) k a q) = c.
Proof.
  intros N R LB Q H. assert (R' : (0 < rs)%nat) by lia. set (r := fun h i => rsum rs (fun j => py_restrict rs node w i j h)).
  assert (RS : forall i, (i < rs)%nat -> r 0%nat i + r 1%nat i = 1) by (intros; now apply restrict_sum).
  destruct nd as [|[|[|[|nd]]]]; try lia.
  - unfold n_fine, face_dims, loop. cbn [Nat.sub seq fold_left Nat.pow rsum]. rewrite H by exact Q. ring.
  - unfold n_fine, loop. cbn [Nat.sub seq fold_left]. destruct (str 0%nat) eqn:S0.
    + change (2 ^ 1 / (1 + Nat.b2n true))%nat with 1%nat. cbn [rsum]. unfold face_dims, loop. cbn [Nat.sub seq fold_left]. rewrite S0, H by exact Q. ring.
    + assert (V : forall k, face_dims 2 rs str (fun x => x) (b_restrict (basis_on rs node w ratio)) k a q = c * r (half_of 2 str k 0) q).
      { intros k. unfold face_dims, loop. cbn [Nat.sub seq fold_left]. rewrite S0. rewrite (face_rows_const 2 rs 0 _ a q c) by first [assumption|lia|intros; apply H; apply along_lt; (assumption || lia)]. f_equal. unfold r. replace (digit rs (2 - 1) 0 q) with q; [reflexivity|]. unfold digit. cbn [Nat.sub]. cbn in Q. rewrite Nat.pow_0_r, Nat.div_1_r, Nat.mod_small by lia. reflexivity. }
      change (2 ^ 1 / (1 + Nat.b2n false))%nat with 2%nat. cbn [rsum]. rewrite !V. unfold half_of. cbn [Nat.sub]. rewrite S0. change ((0 / 2 ^ 0) mod 2)%nat with 0%nat. change ((1 / 2 ^ 0) mod 2)%nat with 1%nat.
      cbn in Q. pose proof (RS q ltac:(lia)) as E1. replace (r 1%nat q) with (1 - r 0%nat q) by lra. ring.
  - cbn in Q. assert (Q2 : (q < rs ^ 2)%nat) by (cbn; lia). destruct (pair_split rs q Q2) as (X & Y & E).
    assert (D0 : forall p, (p < rs ^ 2)%nat -> digit rs 2 0 p = (p / rs)%nat) by (intros p P; unfold digit; cbn [Nat.sub]; rewrite Nat.pow_1_r; apply Nat.mod_small; apply pair_split; exact P).
    assert (D1 : forall p, digit rs 2 1 p = (p mod rs)%nat) by (intros p; unfold digit; cbn [Nat.sub]; now rewrite Nat.pow_0_r, Nat.div_1_r).
    assert (V : forall k, face_dims 3 rs str (fun x => x) (b_restrict (basis_on rs node w ratio)) k a q = c * (if str 0%nat then 1 else r (half_of 3 str k 0) (q / rs)%nat) * (if str 1%nat then 1 else r (half_of 3 str k 1) (q mod rs)%nat)).
    { intros k. unfold face_dims, loop. cbn [Nat.sub seq fold_left].
      set (W0 := if str 0%nat then fun q => a q else _).
      assert (W : forall p, (p < rs ^ 2)%nat -> W0 p = c * (if str 0%nat then 1 else r (half_of 3 str k 0) (p / rs)%nat)).
      { intros p P. unfold W0. destruct (str 0%nat); [rewrite H by exact P; ring|]. change (2 - 0)%nat with 2%nat. rewrite (face_rows_const 3 rs 0 _ a p c) by first [assumption|lia|intros; apply H; apply along_lt; (assumption || lia)]. change (3 - 1)%nat with 2%nat. rewrite D0 by exact P. reflexivity. }
      destruct (str 1%nat); [rewrite W by exact Q2; ring|].
      rewrite (face_rows_const 3 rs 1 _ _ q (c * (if str 0%nat then 1 else r (half_of 3 str k 0) (q / rs)%nat))); [change (3 - 1)%nat with 2%nat; rewrite D1; reflexivity|assumption|lia|exact Q2|].
      intros i I. assert (AL : along (3 - 1) rs 1 q i = (q / rs * rs + i)%nat) by (unfold along; cbn [Nat.sub]; rewrite Nat.pow_0_r, Nat.mod_1_r, !Nat.mul_1_l, !Nat.mul_1_r; lia). rewrite AL. rewrite W by (cbn; nia). rewrite flat_div by exact I. reflexivity. }
    pose proof (RS _ X) as E1. pose proof (RS _ Y) as E2.
    rewrite (rsum_ext _ _ (fun k => c * (if str 0%nat then 1 else r (half_of 3 str k 0) (q / rs)%nat) * (if str 1%nat then 1 else r (half_of 3 str k 1) (q mod rs)%nat))) by (intros; apply V).
    unfold n_fine, loop, half_of. cbn [Nat.sub seq fold_left].
    change (2 ^ 2)%nat with 4%nat.
    destruct (str 0%nat), (str 1%nat); cbn [Nat.b2n Nat.add].
    + change (4 / 2 / 2)%nat with 1%nat. cbn [rsum]. ring.
    + change (4 / 2 / 1)%nat with 2%nat. cbn [rsum]. change ((0 / 2 ^ 0) mod 2)%nat with 0%nat. change ((1 / 2 ^ 0) mod 2)%nat with 1%nat. replace (r 1%nat (q mod rs)%nat) with (1 - r 0%nat (q mod rs)%nat) by lra. ring.
    + change (4 / 1 / 2)%nat with 2%nat. cbn [rsum]. change ((0 / 1) mod 2)%nat with 0%nat. change ((1 / 1) mod 2)%nat with 1%nat. replace (r 1%nat (q / rs)%nat) with (1 - r 0%nat (q / rs)%nat) by lra. ring.
    + change (4 / 1 / 1)%nat with 4%nat. cbn [rsum].
      change ((0 / 2 ^ 1) mod 2)%nat with 0%nat. change ((0 / 2 ^ 0) mod 2)%nat with 0%nat. change ((1 / 2 ^ 1) mod 2)%nat with 0%nat. change ((1 / 2 ^ 0) mod 2)%nat with 1%nat.
      change ((2 / 2 ^ 1) mod 2)%nat with 1%nat. change ((2 / 2 ^ 0) mod 2)%nat with 0%nat. change ((3 / 2 ^ 1) mod 2)%nat with 1%nat. change ((3 / 2 ^ 0) mod 2)%nat with 1%nat.
      replace (r 1%nat (q / rs)%nat) with (1 - r 0%nat (q / rs)%nat) by lra. replace (r 1%nat (q mod rs)%nat) with (1 - r 0%nat (q mod rs)%nat) by lra. ring.
Qed.
