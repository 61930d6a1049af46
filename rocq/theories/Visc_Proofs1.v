(** One element of a viscous flow that is uniform. *)
From Coq Require Import Reals List Arith Lia Lra FunctionalExtensionality Permutation.
From Verif Require Import Outcome RSum Tensor_Spec Tensor_Proofs Row_Model Row_Spec Row_Proofs Connection_Model Basis_Spec Basis_Proofs Quad_Model Quad_Spec Quad_Proofs Spatial_Model Spatial_Spec Spatial_Proofs Spatial_Proofs2 Spatial_Proofs3 Spatial_Proofs4 Spatial_Proofs5 Free_Spec Free_Proofs1 Visc_Spec.
Import ListNotations.
Local Open Scope R_scope.

Lemma loop_rel {S T} (P : S -> T -> Prop) n f g s t : P s t -> (forall i s t, (i < n)%nat -> P s t -> P (f i s) (g i t)) -> P (loop n f s) (loop n g t).
Proof. intros H0 H. induction n as [|n IH]; [exact H0|]. rewrite !loop_S. apply H; [lia|]. apply IH. intros; apply H; [lia|assumption]. Qed.
(** the value of a row written in one point, in terms of what was in that point *)
Lemma put_row_at nd rs id f n w c (a : arr) v q : (0 < rs)%nat -> (id < nd)%nat -> (f < rs ^ (nd - 1))%nat -> (v < n)%nat -> (q < rs ^ nd)%nat ->
  put_row n rs w a (nth_row nd rs id f) c (v * rs ^ nd + q)%nat = if (f =? foot nd rs id q)%nat then c * a (v * rs ^ nd + q)%nat + w (digit rs nd id q) v else a (v * rs ^ nd + q)%nat.
Proof.
  intros R I FL V Q. assert (J : (digit rs nd id q < rs)%nat) by now apply digit_lt. destruct (Nat.eqb_spec f (foot nd rs id q)) as [->|NE].
  - pose proof (put_row_in nd rs id (foot nd rs id q) R I FL n w a c v (digit rs nd id q) V J) as H. cbv zeta beta in H. now rewrite own_row in H by assumption.
  - rewrite put_row_out with (nd := nd) (id := id) (f := f); try assumption; [reflexivity|].
    intros v' j' V' J' EE. apply flat_inj in EE; [|apply qpoint_lt; lia|exact Q]. destruct EE as [_ EE]. rewrite <- (own_row nd rs id q R I) in EE. apply qpoint_inj in EE; lia.
Qed.
Lemma put_row_over nd rs id f n w c (a : arr) v q : (0 < rs)%nat -> (id < nd)%nat -> (f < rs ^ (nd - 1))%nat -> (n <= v)%nat -> (q < rs ^ nd)%nat ->
  put_row n rs w a (nth_row nd rs id f) c (v * rs ^ nd + q)%nat = a (v * rs ^ nd + q)%nat.
Proof.
  intros R I FL V Q. rewrite put_row_out with (nd := nd) (id := id) (f := f); try assumption; [reflexivity|].
  intros v' j' V' J' EE. apply flat_inj in EE; [|apply qpoint_lt; lia|exact Q]. lia.
Qed.

Section Gradient.
Variables (nd rs : nat) (eq : pde) (b : basis) (e : elem) (n : nat) (u ue : nat -> R) (f : nat -> nat -> R) (fn : nat -> arr).
Let nq := (rs ^ nd)%nat.
Let nfq := (rs ^ (nd - 1))%nat.
Hypotheses (R : (0 < rs)%nat) (N : (0 < nd)%nat) (C : carried nd eq n u ue f).
(** the derivative of constants is zero *)
Hypothesis DC : forall c i, (i < rs)%nat -> derivative rs (b_diff b) (b_boundary b) (b_weight b) (fun _ => c) (fun _ => c) i = 0.
Hypothesis CL : closed_element nd rs b e fn.
Hypothesis SE : e_deformed e = true -> forall k j q, (k < 2 * nd)%nat -> (j < nd)%nat -> (q < nfq)%nat -> face_normal nd rs e k (j * nfq + q)%nat = fn k (j * nfq + q)%nat.
Lemma gradient_zero state vf : filled n nq u state -> (forall k, (k < 2 * nd)%nat -> filled (n_extrap eq) nfq ue (vf k)) ->
  forall j v q, (j < nd)%nat -> (v < n_extrap eq)%nat -> (q < nq)%nat -> local_gradient nd rs eq b e state vf j (v * nq + q)%nat = 0.
Proof.
  intros FI FV. unfold local_gradient. fold nq. set (vars := loop nq _ _).
  assert (VV : forall v q, (v < n_extrap eq)%nat -> (q < nq)%nat -> vars (v * nq + q)%nat = ue v).
  { intros v q V Q. unfold vars. rewrite (fill_value (n_extrap eq) nq (fun q v => fetch_extrap eq (at_point nq state q) v)) by assumption. apply (ca_extrap _ _ _ _ _ _ C); [now apply (at_filled n nq u)|exact V]. }
  assert (VR : forall d p i v, (d < nd)%nat -> (p < nfq)%nat -> (i < rs)%nat -> (v < n_extrap eq)%nat -> get_row vars (nth_row nd rs d p) i v = ue v).
  { intros d p i v D P I V. unfold get_row. rewrite ri_nq. apply VV; [exact V|]. now apply qpoint_lt. }
  assert (VB : forall d p s v, (d < nd)%nat -> (p < nfq)%nat -> (s < 2)%nat -> (v < n_extrap eq)%nat -> get_bound vf (nth_row nd rs d p) s v = ue v).
  { intros d p s v D P S V. unfold get_bound. rewrite ri_nfq by assumption. cbn [ri_i_dim i_face_qpoint i_fq nth_row]. apply FV; [lia|exact V|exact P]. }
  destruct (e_deformed e) eqn:DE.
  - (* the component in direction j is written like a rate *)
    set (w := fun j d ind i v => d_both rs b (fun i (_ : nat) => get_row (fun k => e_nrml e (d * nd * nq + k)%nat) ind i j * get_row vars ind i v) (fun s (_ : nat) => get_bound (face_normal nd rs e) ind s j * get_bound vf ind s v) i 0%nat / e_size e).
    intros j v q J V Q.
    set (P := fun (g : nat -> arr) (a : arr) => forall v q, (v < n_extrap eq)%nat -> (q < nq)%nat -> g j (v * nq + q)%nat = a (v * nq + q)%nat).
    match goal with |- loop nd ?body ?s j _ = _ => assert (L : P (loop nd body s) (loop nd (fun d => for_rows nd rs d (fun ind a => put_row (n_extrap eq) rs (w j d ind) a ind 1)) (fun _ => 0))); [apply (loop_rel P)|] end.
    + intros v' q' _ _. reflexivity.
    + intros d g a D PA. rewrite !for_rows_eq by assumption. fold nfq. apply (loop_rel P); [exact PA|]. intros p g' a' PP PG v' q' V' Q'.
      set (ind := nth_row nd rs d p). cbv zeta.
      set (row_n := get_row (fun k => e_nrml e (d * nd * nq + k)%nat) ind).
      (* only the pass of direction j touches it, and in it only that of variable v' *)
      set (inner := fun j_dim => loop (n_extrap eq) (fun i_var g => fput g j_dim (fun k => if ((i_var * nq <=? k) && (k <? i_var * nq + nq))%nat%bool
          then put_row 1 rs (fun i v => d_both rs b (fun i (_ : nat) => row_n i j_dim * get_row vars ind i i_var) (fun s (_ : nat) => get_bound (face_normal nd rs e) ind s j_dim * get_bound vf ind s i_var) i v / e_size e) (fun q => g j_dim (i_var * nq + q)%nat) ind 1 (k - i_var * nq)%nat else g j_dim k))).
      change (loop nd inner g' j (v' * nq + q')%nat = put_row (n_extrap eq) rs (w j d ind) a' ind 1 (v' * nq + q')%nat).
      assert (OTHER : forall jd h, jd <> j -> inner jd h j = h j).
      { intros jd h NE. unfold inner. apply (loop_inv (fun _ t => t j = h j)); [reflexivity|]. intros i t _ <-. now rewrite fput_out by congruence. }
      assert (OWN : forall h, inner j h j (v' * nq + q')%nat = put_row 1 rs (fun i v => w j d ind i v') (fun q => h j (v' * nq + q)%nat) ind 1 (0 * nq + q')%nat).
      { intros h. unfold inner.
        match goal with |- loop _ ?bd h j _ = _ => set (body := bd) end.
        assert (X : forall z, (z <= n_extrap eq)%nat -> (forall x y, (z <= x)%nat -> (y < nq)%nat -> loop z body h j (x * nq + y)%nat = h j (x * nq + y)%nat) /\ ((v' < z)%nat -> loop z body h j (v' * nq + q')%nat = put_row 1 rs (fun i v => w j d ind i v') (fun q => h j (v' * nq + q)%nat) ind 1 (0 * nq + q')%nat)).
        { induction z as [|z IH]; intros Z; [split; [reflexivity|lia]|]. destruct (IH ltac:(lia)) as [IH1 IH2]. rewrite loop_S. unfold body at 1 3. split.
          - intros x y XX Y. rewrite fput_in. destruct (Nat.leb_spec (z * nq) (x * nq + y)), (Nat.ltb_spec (x * nq + y) (z * nq + nq)); cbn [andb]; try (apply IH1; [lia|exact Y]); nia.
          - intros VZ. rewrite fput_in. destruct (Nat.eq_dec v' z) as [<-|NE].
            + destruct (Nat.leb_spec (v' * nq) (v' * nq + q')), (Nat.ltb_spec (v' * nq + q') (v' * nq + nq)); cbn [andb]; try lia.
              replace (v' * nq + q' - v' * nq)%nat with (0 * nq + q')%nat by lia. unfold ind, nq. rewrite !put_row_at by (assumption || lia). fold nq ind.
              rewrite !(IH1 v' _ (le_n v')) by lia. reflexivity.
            + destruct (Nat.leb_spec (z * nq) (v' * nq + q')), (Nat.ltb_spec (v' * nq + q') (z * nq + nq)); cbn [andb]; try (apply IH2; lia); nia. }
        now apply (X (n_extrap eq)). }
      assert (Y : forall z, (z <= nd)%nat -> ((z <= j)%nat -> loop z inner g' j = g' j) /\ ((j < z)%nat -> loop z inner g' j (v' * nq + q')%nat = put_row 1 rs (fun i v => w j d ind i v') (fun q => g' j (v' * nq + q)%nat) ind 1 (0 * nq + q')%nat)).
      { induction z as [|z IH]; intros Z; [split; [reflexivity|lia]|]. destruct (IH ltac:(lia)) as [IH1 IH2]. rewrite loop_S. split.
        - intros L. rewrite OTHER by lia. apply IH1. lia.
        - intros L. destruct (Nat.eq_dec z j) as [->|NE]; [rewrite OWN; rewrite IH1 by lia; reflexivity|]. rewrite OTHER by exact NE. apply IH2. lia. }
      rewrite (proj2 (Y nd (le_n nd)) J). unfold ind, nq. rewrite !put_row_at by (assumption || lia). fold nq. rewrite Nat.mul_0_l, Nat.add_0_l. rewrite (PG v' q' V' Q'). reflexivity.
    + rewrite (L v q V Q). unfold nq. rewrite rows_total by assumption. rewrite Rplus_0_l.
      transitivity (rsum nd (fun d => derivative rs (b_diff b) (b_boundary b) (b_weight b) (fun i => local_normal nd rs e (along nd rs d q i) j d) (fun s => fn (2 * d + s)%nat (j * rs ^ (nd - 1) + foot nd rs d q)%nat) (digit rs nd d q)) * (ue v / e_size e)); [|rewrite (CL j q J Q); ring].
      rewrite <- rsum_scal_r. apply rsum_ext. intros d D. unfold w, d_both. unfold Rdiv. rewrite <- Rmult_assoc. f_equal.
      assert (FT : (foot nd rs d q < nfq)%nat) by now apply foot_lt.
      pose proof (derivative_sum rs (b_diff b) (b_boundary b) (b_weight b) 1 (fun _ => ue v) (fun _ i => local_normal nd rs e (along nd rs d q i) j d) (fun _ s => fn (2 * d + s)%nat (j * rs ^ (nd - 1) + foot nd rs d q)%nat) (digit rs nd d q)) as S. cbn [rsum] in S. rewrite Rplus_0_l in S. rewrite <- S. apply derivative_ext.
      * intros i I. rewrite VR by assumption. rewrite Rplus_0_l. f_equal. unfold get_row. rewrite ri_nq. unfold local_normal. rewrite DE. destruct (along_row nd rs d q i) as [<-|]; [|lia]. f_equal. fold nq. ring.
      * intros s SS. rewrite VB by assumption. rewrite Rplus_0_l. f_equal. unfold get_bound. rewrite ri_nfq by assumption. cbn [ri_i_dim i_face_qpoint i_fq nth_row]. fold nfq. rewrite SE by (reflexivity || assumption || lia). f_equal. lia.
  - set (P := fun (g : nat -> arr) => forall j v q, (j < nd)%nat -> (v < n_extrap eq)%nat -> (q < nq)%nat -> g j (v * nq + q)%nat = 0).
    apply (loop_inv (fun _ => P)); [intros j v q _ _ _; reflexivity|]. intros d g D PG. rewrite for_rows_eq by assumption. fold nfq. apply (loop_inv (fun _ => P)); [exact PG|]. intros p g' PP PG' j v q J V Q. cbv zeta.
    destruct (Nat.eq_dec j d) as [->|NE]; [|rewrite fput_out by exact NE; now apply PG']. rewrite fput_in. unfold nq. rewrite put_row_at by assumption. fold nq. rewrite (PG' d v q D V Q). destruct (Nat.eqb_spec p (foot nd rs d q)); [|reflexivity].
    unfold d_both. rewrite (derivative_ext rs _ _ _ _ (fun _ => ue v) _ (fun _ => ue v)) by (intros; (apply VR || apply VB); assumption). rewrite DC by now apply digit_lt. unfold Rdiv. ring.
Qed.
End Gradient.
