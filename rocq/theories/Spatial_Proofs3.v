(** The kernels on connections and refined faces: what they do to the integrals over faces. *)
From Coq Require Import Reals List Arith Lia Lra FunctionalExtensionality Permutation.
From Verif Require Import Outcome RSum Tensor_Spec Tensor_Proofs Row_Model Row_Spec Row_Proofs Connection_Model Quad_Model Quad_Spec Quad_Proofs Quad_Proofs2 Spatial_Model Spatial_Spec Spatial_Proofs Spatial_Proofs2.
Import ListNotations.
Local Open Scope R_scope.

(** ** permutations of face points *)
Lemma quad_permute n rs wt n_var pi a v : (0 < rs)%nat -> (forall q, (q < rs ^ n)%nat -> (pi q < rs ^ n)%nat /\ pi (pi q) = q /\ outer_power rs wt n (pi q) = outer_power rs wt n q) ->
  quad n rs wt (permute n_var (rs ^ n) pi a) v = quad n rs wt a v.
Proof.
  intros R H. assert (NQ : (0 < rs ^ n)%nat) by now apply pow_pos'. destruct (Nat.lt_ge_cases v n_var) as [V|V].
  - unfold quad. rewrite (rsum_image (rs ^ n) (rs ^ n) pi (fun q => outer_power rs wt n q * a (v * rs ^ n + q)%nat)).
    + apply rsum_ext. intros q Q. rewrite (proj2 (proj2 (H q Q))). f_equal. unfold permute. rewrite flat_div, flat_mod by exact Q. destruct (Nat.ltb_spec (v * rs ^ n + q) (n_var * rs ^ n)); [reflexivity|nia].
    + intros q Q. apply (H q Q).
    + intros i j I J E. rewrite <- (proj1 (proj2 (H i I))), <- (proj1 (proj2 (H j J))). now rewrite E.
    + intros q Q F. exfalso. apply (F (pi q)); [apply (H q Q)|apply (H q Q)].
  - apply quad_ext. intros q Q. unfold permute. destruct (Nat.ltb_spec (v * rs ^ n + q) (n_var * rs ^ n)); [nia|reflexivity].
Qed.
Lemma outer_power_1 rs w q : (q < rs)%nat -> outer_power rs w 1 q = w q.
Proof. intros H. unfold outer_power. cbn [rprod]. unfold digit. cbn [Nat.sub]. rewrite Nat.pow_0_r, Nat.div_1_r, Nat.mod_small by exact H. ring. Qed.
Lemma outer_power_2 rs w q : (q < rs ^ 2)%nat -> outer_power rs w 2 q = w (q / rs)%nat * w (q mod rs)%nat.
Proof.
  intros H. unfold outer_power. cbn [rprod]. unfold digit. cbn [Nat.sub]. rewrite Nat.pow_1_r, Nat.pow_0_r, Nat.div_1_r.
  rewrite (Nat.mod_small (q / rs)); [ring|]. cbn in H. apply Nat.div_lt_upper_bound; nia.
Qed.
Lemma pair_split rs q : (q < rs ^ 2)%nat -> (q / rs < rs)%nat /\ (q mod rs < rs)%nat /\ q = (q / rs * rs + q mod rs)%nat.
Proof. intros H. cbn in H. assert (0 < rs)%nat by (destruct rs; lia). pose proof (Nat.mod_upper_bound q rs ltac:(lia)). pose proof (Nat.div_mod q rs ltac:(lia)). split; [apply Nat.div_lt_upper_bound; nia|split; lia]. Qed.
Lemma pi_ok_2 rs wt (pi : nat -> nat) (g : nat -> nat -> nat * nat) : (forall q, (q < rs ^ 2)%nat -> pi q = (fst (g (q / rs) (q mod rs)) * rs + snd (g (q / rs) (q mod rs)))%nat) ->
  (forall i j, (i < rs)%nat -> (j < rs)%nat -> (fst (g i j) < rs)%nat /\ (snd (g i j) < rs)%nat /\ g (fst (g i j)) (snd (g i j)) = (i, j) /\ wt (fst (g i j)) * wt (snd (g i j)) = wt i * wt j) ->
  forall q, (q < rs ^ 2)%nat -> (pi q < rs ^ 2)%nat /\ pi (pi q) = q /\ outer_power rs wt 2 (pi q) = outer_power rs wt 2 q.
Proof.
  intros E G q Q. destruct (pair_split rs q Q) as (A & B & D). destruct (G _ _ A B) as (G1 & G2 & G3 & G4).
  assert (L : (pi q < rs ^ 2)%nat) by (rewrite E by exact Q; cbn; nia).
  assert (P1 : (pi q / rs = fst (g (q / rs) (q mod rs)))%nat) by (rewrite E by exact Q; now apply flat_div).
  assert (P2 : (pi q mod rs = snd (g (q / rs) (q mod rs)))%nat) by (rewrite E by exact Q; now apply flat_mod).
  split; [exact L|split].
  - rewrite E by exact L. rewrite P1, P2, G3. cbn [fst snd]. symmetry. exact D.
  - rewrite !outer_power_2 by assumption. now rewrite P1, P2.
Qed.
Section Perm.
Variables (rs : nat) (wt : nat -> R).
Hypotheses (R : (0 < rs)%nat) (W : symmetric rs wt).
Lemma ok_transpose q : (q < rs ^ 2)%nat -> (pi_transpose rs q < rs ^ 2)%nat /\ pi_transpose rs (pi_transpose rs q) = q /\ outer_power rs wt 2 (pi_transpose rs q) = outer_power rs wt 2 q.
Proof. apply (pi_ok_2 rs wt (pi_transpose rs) (fun i j => (j, i))); [intros p P; unfold pi_transpose; cbn [fst snd]; lia|]. intros i j I J. cbn [fst snd]. repeat split; try assumption. ring. Qed.
Lemma ok_colwise q : (q < rs ^ 2)%nat -> (pi_colwise rs q < rs ^ 2)%nat /\ pi_colwise rs (pi_colwise rs q) = q /\ outer_power rs wt 2 (pi_colwise rs q) = outer_power rs wt 2 q.
Proof.
  apply (pi_ok_2 rs wt (pi_colwise rs) (fun i j => (i, rs - 1 - j)%nat)); [intros p P; unfold pi_colwise; cbn [fst snd]; lia|]. intros i j I J. cbn [fst snd]. repeat split; try lia.
  - f_equal. lia. - now rewrite W by exact J.
Qed.
Lemma ok_rowwise q : (q < rs ^ 2)%nat -> (pi_rowwise rs rs q < rs ^ 2)%nat /\ pi_rowwise rs rs (pi_rowwise rs rs q) = q /\ outer_power rs wt 2 (pi_rowwise rs rs q) = outer_power rs wt 2 q.
Proof.
  apply (pi_ok_2 rs wt (pi_rowwise rs rs) (fun i j => (rs - 1 - i, j)%nat)); [intros p P; unfold pi_rowwise; cbn [fst snd]; lia|]. intros i j I J. cbn [fst snd]. repeat split; try lia.
  - f_equal. lia. - now rewrite W by exact I.
Qed.
Lemma ok_colwise_1 q : (q < rs ^ 1)%nat -> (pi_colwise rs q < rs ^ 1)%nat /\ pi_colwise rs (pi_colwise rs q) = q /\ outer_power rs wt 1 (pi_colwise rs q) = outer_power rs wt 1 q.
Proof.
  rewrite Nat.pow_1_r. intros Q. assert (E : forall p, (p < rs)%nat -> pi_colwise rs p = (rs - 1 - p)%nat) by (intros p P; unfold pi_colwise; rewrite Nat.mod_small, Nat.div_small by exact P; lia).
  rewrite (E q Q). rewrite E by lia. split; [lia|split; [lia|]]. rewrite !outer_power_1 by lia. now apply W.
Qed.
Lemma quad_transpose nd n_var d a v : quad (nd - 1) rs wt (fp_transpose nd rs n_var d a) v = quad (nd - 1) rs wt a v.
Proof. unfold fp_transpose. destruct (transpose d); [|reflexivity]. destruct (Nat.eqb_spec nd 3) as [->|]; [|reflexivity]. apply quad_permute; [exact R|exact ok_transpose]. Qed.
Lemma quad_flip nd n_var d a v : quad (nd - 1) rs wt (fp_flip nd rs n_var d a) v = quad (nd - 1) rs wt a v.
Proof.
  unfold fp_flip. destruct (flip_tangential d); [|reflexivity]. destruct (Nat.eqb_spec nd 3) as [->|].
  - apply quad_permute; [exact R|]. destruct (xorb _ _); [exact ok_colwise|exact ok_rowwise].
  - destruct (Nat.eqb_spec nd 2) as [->|]; [|reflexivity]. apply quad_permute; [exact R|exact ok_colwise_1].
Qed.
Lemma quad_match nd n_var d a v : quad (nd - 1) rs wt (fp_match nd rs n_var d a) v = quad (nd - 1) rs wt a v.
Proof. unfold fp_match. now rewrite quad_flip, quad_transpose. Qed.
Lemma quad_restore nd n_var d a v : quad (nd - 1) rs wt (fp_restore nd rs n_var d a) v = quad (nd - 1) rs wt a v.
Proof. unfold fp_restore. now rewrite quad_transpose, quad_flip. Qed.
End Perm.

(** ** [Neighbor] *)
Definition take_vars (n : nat) (a : arr) : arr := fun k => if (k <? n)%nat then a k else 0.
Definition facing (nd rs : nat) (eq : pde) (c : con) (st : nat -> arr) : arr := let a := take_vars (n_extrap eq * rs ^ (nd - 1)) (st (c_face c true)) in if c_deformed c then fp_match nd rs (n_extrap eq) (c_dir c) a else a.
Definition shared_flux (nd rs : nat) (eq : pde) (c : con) (st : nat -> arr) (q v : nat) : R :=
  numerical_flux nd eq (con_normal nd (rs ^ (nd - 1)) c q) (at_point (rs ^ (nd - 1)) (take_vars (n_extrap eq * rs ^ (nd - 1)) (st (c_face c false))) q) (at_point (rs ^ (nd - 1)) (facing nd rs eq c st) q) v.
Definition given_back (nd rs : nat) (eq : pde) (c : con) (n : nat) (a old : arr) : arr := fun k => if (k <? n * rs ^ (nd - 1))%nat then (if c_deformed c then fp_restore nd rs (n_extrap eq) (c_dir c) a else a) k else old k.
Record neighbor_result (nd rs : nat) (eq : pde) (c : con) (st ldg st' ldg' : nat -> arr) : Prop := {
  nr_other : forall id, id <> c_face c false -> id <> c_face c true -> st' id = st id /\ ldg' id = ldg id;
  nr_no_conv : has_convection eq = false -> st' = st;
  nr_no_diff : has_diffusion eq = false -> ldg' = ldg;
  nr_st0 : has_convection eq = true -> forall v q, (v < n_update eq)%nat -> (q < rs ^ (nd - 1))%nat -> st' (c_face c false) (v * rs ^ (nd - 1) + q)%nat = side_sign c false * shared_flux nd rs eq c st q v;
  nr_st1 : has_convection eq = true -> exists a, st' (c_face c true) = given_back nd rs eq c (n_update eq) a (st (c_face c true)) /\ forall v q, (v < n_update eq)%nat -> (q < rs ^ (nd - 1))%nat -> a (v * rs ^ (nd - 1) + q)%nat = side_sign c true * shared_flux nd rs eq c st q v;
  nr_ldg0 : has_diffusion eq = true -> forall v q, (v < n_extrap eq)%nat -> (q < rs ^ (nd - 1))%nat -> ldg' (c_face c false) (v * rs ^ (nd - 1) + q)%nat = 1 / 2 * (st (c_face c false) (v * rs ^ (nd - 1) + q)%nat + facing nd rs eq c st (v * rs ^ (nd - 1) + q)%nat);
  nr_ldg1 : has_diffusion eq = true -> exists a, ldg' (c_face c true) = given_back nd rs eq c (n_extrap eq) a (ldg (c_face c true)) /\ forall v q, (v < n_extrap eq)%nat -> (q < rs ^ (nd - 1))%nat -> a (v * rs ^ (nd - 1) + q)%nat = 1 / 2 * (st (c_face c false) (v * rs ^ (nd - 1) + q)%nat + facing nd rs eq c st (v * rs ^ (nd - 1) + q)%nat) }.
Lemma pair_puts n nq q (x y : nat -> R) (a b : arr) : (q < nq)%nat ->
  let s := loop n (fun v '(a, b) => (put a (v * nq + q)%nat (x v), put b (v * nq + q)%nat (y v))) (a, b) in
  (forall v, (v < n)%nat -> fst s (v * nq + q)%nat = x v /\ snd s (v * nq + q)%nat = y v) /\ (forall k, (k mod nq <> q)%nat -> fst s k = a k /\ snd s k = b k).
Proof.
  intros Q s. unfold s. clear s. split.
  - intros v V. rewrite loop_pair. cbn [fst snd]. split.
    + rewrite (loop_put_in n (fun v => (v * nq + q)%nat) (fun v _ => x v)); [reflexivity| |exact V]. intros i j _ _ E. apply flat_inj in E; [tauto|assumption|assumption].
    + rewrite (loop_put_in n (fun v => (v * nq + q)%nat) (fun v _ => y v)); [reflexivity| |exact V]. intros i j _ _ E. apply flat_inj in E; [tauto|assumption|assumption].
  - intros k K. rewrite loop_pair. cbn [fst snd]. split.
    + apply (loop_put_out n (fun v => (v * nq + q)%nat) (fun v _ => x v)). intros i _ E. apply K. rewrite <- E. now apply flat_mod.
    + apply (loop_put_out n (fun v => (v * nq + q)%nat) (fun v _ => y v)). intros i _ E. apply K. rewrite <- E. now apply flat_mod.
Qed.
Lemma neighbor_spec nd rs eq c st ldg : (0 < rs)%nat -> c_face c false <> c_face c true -> neighbor_result nd rs eq c st ldg (fst (neighbor nd rs eq c (st, ldg))) (snd (neighbor nd rs eq c (st, ldg))).
Proof.
  intros R NE. set (nfq := (rs ^ (nd - 1))%nat). assert (NQ : (0 < nfq)%nat) by now apply pow_pos'.
  set (F0 := take_vars (n_extrap eq * nfq) (st (c_face c false))). set (F1 := facing nd rs eq c st).
  set (avg := fun k => 1 / 2 * (F0 k + F1 k)).
  set (P := fun m (s : arr * arr * arr * arr) => let '(f0, f1, a0, a1) := s in
    (forall k, (m <= k mod nfq)%nat -> f0 k = F0 k /\ f1 k = F1 k) /\
    (has_diffusion eq = true -> forall q v, (q < m)%nat -> (v < n_extrap eq)%nat -> a0 (v * nfq + q)%nat = avg (v * nfq + q)%nat /\ a1 (v * nfq + q)%nat = avg (v * nfq + q)%nat) /\
    (has_convection eq = true -> forall q v, (q < m)%nat -> (v < n_update eq)%nat -> f0 (v * nfq + q)%nat = side_sign c false * shared_flux nd rs eq c st q v /\ f1 (v * nfq + q)%nat = side_sign c true * shared_flux nd rs eq c st q v)).
  unfold neighbor. fold nfq. match goal with |- context [loop nfq ?b ?s] => set (body := b); set (s0 := s) end.
  assert (L : P nfq (loop nfq body s0)); [apply (loop_inv P)|].
  - unfold P, s0. split; [intros; split; reflexivity|split; intros; lia].
  - intros q [[[f0 f1] a0] a1] Q (A & B & C). unfold body.
    match goal with |- context [loop (n_extrap eq) ?b ?s] => set (T := loop (n_extrap eq) b s) end.
    assert (T1 : (forall v, (v < n_extrap eq)%nat -> fst T (v * nfq + q)%nat = avg (v * nfq + q)%nat /\ snd T (v * nfq + q)%nat = avg (v * nfq + q)%nat) /\ (forall k, (k mod nfq <> q)%nat -> fst T k = a0 k /\ snd T k = a1 k)).
    { pose proof (pair_puts (n_extrap eq) nfq q (fun v => 1 / 2 * (f0 (v * nfq + q)%nat + f1 (v * nfq + q)%nat)) (fun v => 1 / 2 * (f0 (v * nfq + q)%nat + f1 (v * nfq + q)%nat)) a0 a1 Q) as [X Y]. split; [|exact Y].
      intros v V. destruct (X v V) as [X1 X2]. destruct (A (v * nfq + q)%nat) as [A1 A2]; [rewrite flat_mod by exact Q; lia|]. unfold avg. rewrite <- A1, <- A2. split; [exact X1|exact X2]. }
    set (nf := numerical_flux nd eq (con_normal nd nfq c q) (at_point nfq f0 q) (at_point nfq f1 q)).
    assert (NF : nf = shared_flux nd rs eq c st q).
    { unfold nf, shared_flux. fold nfq. fold F0 F1. replace (at_point nfq f0 q) with (at_point nfq F0 q) by (apply functional_extensionality; intros v; symmetry; apply A; rewrite flat_mod by exact Q; lia).
      replace (at_point nfq f1 q) with (at_point nfq F1 q) by (apply functional_extensionality; intros v; symmetry; apply A; rewrite flat_mod by exact Q; lia). reflexivity. }
    match goal with |- context [loop (n_update eq) ?b ?s] => set (U := loop (n_update eq) b s) end.
    pose proof (pair_puts (n_update eq) nfq q (fun v => side_sign c false * nf v) (fun v => side_sign c true * nf v) f0 f1 Q : (forall v, (v < n_update eq)%nat -> fst U (v * nfq + q)%nat = _ /\ snd U (v * nfq + q)%nat = _) /\ (forall k, (k mod nfq <> q)%nat -> fst U k = f0 k /\ snd U k = f1 k)) as U1.
    cbv beta in U1. rewrite NF in U1. clearbody T U. destruct T as [t0 t1], U as [u0 u1]. cbn [fst snd] in T1, U1.
    assert (PT : has_diffusion eq = true -> forall q' v, (q' < S q)%nat -> (v < n_extrap eq)%nat -> t0 (v * nfq + q')%nat = avg (v * nfq + q')%nat /\ t1 (v * nfq + q')%nat = avg (v * nfq + q')%nat).
    { intros D q' v Q' V. destruct (Nat.eq_dec q' q) as [->|N]; [apply T1; exact V|]. destruct (proj2 T1 (v * nfq + q')%nat) as [E1 E2]; [rewrite flat_mod; lia|]. rewrite E1, E2. apply B; [exact D|lia|exact V]. }
    assert (PU : has_convection eq = true -> forall q' v, (q' < S q)%nat -> (v < n_update eq)%nat -> u0 (v * nfq + q')%nat = side_sign c false * shared_flux nd rs eq c st q' v /\ u1 (v * nfq + q')%nat = side_sign c true * shared_flux nd rs eq c st q' v).
    { intros D q' v Q' V. destruct (Nat.eq_dec q' q) as [->|N]; [apply U1; exact V|]. destruct (proj2 U1 (v * nfq + q')%nat) as [E1 E2]; [rewrite flat_mod; lia|]. rewrite E1, E2. apply C; [exact D|lia|exact V]. }
    assert (PK : forall k, (S q <= k mod nfq)%nat -> u0 k = F0 k /\ u1 k = F1 k).
    { intros k K. destruct (proj2 U1 k) as [E1 E2]; [lia|]. rewrite E1, E2. apply A. lia. }
    assert (PK' : forall k, (S q <= k mod nfq)%nat -> f0 k = F0 k /\ f1 k = F1 k) by (intros; apply A; lia).
    destruct (has_diffusion eq) eqn:HD, (has_convection eq) eqn:HC; unfold P; (split; [exact PK || exact PK'|]); split; rewrite ?HD, ?HC; (exact PT || exact PU || (intros; discriminate)).
  - destruct (loop nfq body s0) as [[[f0 f1] a0] a1]. destruct L as (_ & B & C). cbv zeta.
    assert (W : forall n a old, (fun k => if (k <? n * nfq)%nat then (if c_deformed c then fp_restore nd rs (n_extrap eq) (c_dir c) a else a) k else old k) = given_back nd rs eq c n a old) by reflexivity.
    constructor.
    + intros id H0 H1. destruct (has_convection eq), (has_diffusion eq); cbn [fst snd]; rewrite ?fput_out by assumption; split; reflexivity.
    + intros H. rewrite H. reflexivity.
    + intros H. rewrite H. reflexivity.
    + intros H. rewrite H. cbn [fst]. intros v q V Q. fold nfq in Q |- *. rewrite fput_out, fput_in by exact NE. destruct (Nat.ltb_spec (v * nfq + q) (n_update eq * nfq)); [|nia]. now apply (C H q v Q V).
    + intros H. rewrite H. cbn [fst]. exists f1. split; [|intros v q V Q; now apply (C H q v Q V)]. rewrite fput_in. rewrite fput_out by (apply not_eq_sym; exact NE). rewrite W. reflexivity.
    + intros H. rewrite H. cbn [snd]. intros v q V Q. fold nfq in Q |- *. rewrite fput_out, fput_in by exact NE. destruct (Nat.ltb_spec (v * nfq + q) (n_extrap eq * nfq)) as [LT|]; [|nia]. rewrite (proj1 (B H q v Q V)). unfold avg, F0, take_vars. destruct (Nat.ltb_spec (v * nfq + q) (n_extrap eq * nfq)); [reflexivity|lia].
    + intros H. rewrite H. cbn [snd]. exists a1. split; [rewrite fput_in; rewrite fput_out by (apply not_eq_sym; exact NE); apply W|]. intros v q V Q. fold nfq in Q |- *. rewrite (proj2 (B H q v Q V)). unfold avg, F0, take_vars. destruct (Nat.ltb_spec (v * nfq + q) (n_extrap eq * nfq)); [reflexivity|nia].
Qed.
Lemma quad_given_back nd rs wt eq c n a old v : (0 < rs)%nat -> symmetric rs wt -> (v < n)%nat -> quad (nd - 1) rs wt (given_back nd rs eq c n a old) v = quad (nd - 1) rs wt a v.
Proof.
  intros R W V. transitivity (quad (nd - 1) rs wt (if c_deformed c then fp_restore nd rs (n_extrap eq) (c_dir c) a else a) v).
  - apply quad_ext. intros q Q. unfold given_back. destruct (Nat.ltb_spec (v * rs ^ (nd - 1) + q) (n * rs ^ (nd - 1))); [reflexivity|nia].
  - destruct (c_deformed c); [now apply quad_restore|reflexivity].
Qed.
Lemma neighbor_quad nd rs wt eq c st ldg v : (0 < rs)%nat -> symmetric rs wt -> c_face c false <> c_face c true -> has_convection eq = true -> (v < n_update eq)%nat ->
  let st' := fst (neighbor nd rs eq c (st, ldg)) in
  forall side, quad (nd - 1) rs wt (st' (c_face c side)) v = side_sign c side * rsum (rs ^ (nd - 1)) (fun q => outer_power rs wt (nd - 1) q * shared_flux nd rs eq c st q v).
Proof.
  intros R W NE HC V st' side. destruct (neighbor_spec nd rs eq c st ldg R NE) as [_ _ _ S0 S1 _ _]. fold st' in S0, S1. destruct side.
  - destruct (S1 HC) as (a & E & H). rewrite E, quad_given_back by assumption. unfold quad. rewrite <- rsum_scal. apply rsum_ext. intros q Q. rewrite H by assumption. ring.
  - unfold quad. rewrite <- rsum_scal. apply rsum_ext. intros q Q. rewrite S0 by assumption. ring.
Qed.

(** ** [Neighbor_reconcile] *)
Lemma neighbor_reconcile_other nd rs eq junk c ldg id : id <> c_face c false -> id <> c_face c true -> neighbor_reconcile nd rs eq junk c ldg id = ldg id.
Proof. intros H0 H1. unfold neighbor_reconcile. match goal with |- context [loop ?n ?b ?s] => destruct (loop n b s) as [f0 f1] end. rewrite !fput_out by assumption. reflexivity. Qed.
Lemma neighbor_reconcile_quad nd rs wt eq junk c ldg v : (0 < rs)%nat -> symmetric rs wt -> c_face c false <> c_face c true -> (v < n_update eq)%nat ->
  let ldg' := neighbor_reconcile nd rs eq junk c ldg in
  exists total, forall side, quad (nd - 1) rs wt (ldg (c_face c side)) v + quad (nd - 1) rs wt (ldg' (c_face c side)) v = side_sign c side * total.
Proof.
  intros R W NE V ldg'. set (nfq := (rs ^ (nd - 1))%nat). assert (NQ : (0 < nfq)%nat) by now apply pow_pos'.
  unfold ldg', neighbor_reconcile. fold nfq.
  set (take := fun (a : arr) k => if (k <? n_update eq * nfq)%nat then a k else junk k).
  fold (take (ldg (c_face c false))) (take (ldg (c_face c true))).
  set (F0 := take (ldg (c_face c false))). set (F1 := if c_deformed c then fp_match nd rs (n_extrap eq) (c_dir c) (take (ldg (c_face c true))) else take (ldg (c_face c true))).
  set (avg := fun k => 1 / 2 * side_sign c false * F0 k + 1 / 2 * side_sign c true * F1 k).
  match goal with |- context [loop nfq ?b ?s] => set (body := b) end.
  set (P := fun m (s : arr * arr) => (forall q v, (q < m)%nat -> (v < n_update eq)%nat -> fst s (v * nfq + q)%nat = side_sign c false * avg (v * nfq + q)%nat - F0 (v * nfq + q)%nat /\ snd s (v * nfq + q)%nat = side_sign c true * avg (v * nfq + q)%nat - F1 (v * nfq + q)%nat) /\
    (forall k, (m <= k mod nfq)%nat -> fst s k = F0 k /\ snd s k = F1 k)).
  assert (L : P nfq (loop nfq body (F0, F1))); [apply (loop_inv P)|].
  - split; [intros; lia|intros; split; reflexivity].
  - intros q s Q (A & B). unfold body.
    set (P2 := fun m (t : arr * arr) => (forall v, (v < m)%nat -> fst t (v * nfq + q)%nat = side_sign c false * avg (v * nfq + q)%nat - F0 (v * nfq + q)%nat /\ snd t (v * nfq + q)%nat = side_sign c true * avg (v * nfq + q)%nat - F1 (v * nfq + q)%nat) /\
      (forall k, (m <= k / nfq \/ k mod nfq <> q)%nat -> fst t k = fst s k /\ snd t k = snd s k)).
    match goal with |- P _ (loop ?n ?b ?s) => assert (L2 : P2 n (loop n b s)); [apply (loop_inv P2)|] end.
    + split; [intros; lia|intros; split; reflexivity].
    + intros v' [t0 t1] V' (C & D). cbn [fst snd] in *. destruct (D (v' * nfq + q)%nat) as [D1 D2]; [rewrite flat_div by exact Q; lia|]. destruct (B (v' * nfq + q)%nat) as [B1 B2]; [rewrite flat_mod by exact Q; lia|].
      split; cbn [fst snd].
      * intros u U. destruct (Nat.eq_dec u v') as [->|N]; [rewrite !put_in; rewrite D1, D2, B1, B2; unfold avg; split; ring|]. rewrite !put_out by (intros E; apply flat_inj in E; lia). apply C. lia.
      * intros k K. rewrite !put_out by (intros ->; rewrite flat_div, flat_mod in K by exact Q; lia). apply D. lia.
    + destruct L2 as [C D]. split.
      * intros q' v' Q' V'. destruct (Nat.eq_dec q' q) as [->|N]; [now apply C|]. destruct (D (v' * nfq + q')%nat) as [D1 D2]; [rewrite flat_mod; lia|]. rewrite D1, D2. apply A; lia.
      * intros k K. destruct (D k) as [D1 D2]; [lia|]. rewrite D1, D2. apply B. lia.
  - cbv zeta. match goal with |- context [loop nfq body ?s] => match type of L with P _ ?t => set (u := t) in *; match goal with |- context [loop nfq body s] => change (loop nfq body s) with u end end end. destruct u as [f0 f1]. destruct L as [A _]. cbn [fst snd] in A.
    exists (quad (nd - 1) rs wt avg v).
    assert (Q0 : quad (nd - 1) rs wt (ldg (c_face c false)) v = quad (nd - 1) rs wt F0 v).
    { apply quad_ext. intros q Q. fold nfq in Q |- *. unfold F0, take. destruct (Nat.ltb_spec (v * nfq + q) (n_update eq * nfq)); [reflexivity|nia]. }
    assert (Q1 : quad (nd - 1) rs wt (ldg (c_face c true)) v = quad (nd - 1) rs wt F1 v).
    { transitivity (quad (nd - 1) rs wt (take (ldg (c_face c true))) v); [apply quad_ext; intros q Q; fold nfq in Q |- *; unfold take; destruct (Nat.ltb_spec (v * nfq + q) (n_update eq * nfq)); [reflexivity|nia]|]. unfold F1. destruct (c_deformed c); [symmetry; now apply quad_match|reflexivity]. }
    cbv zeta. intros [|].
    + rewrite Q1, fput_in. rewrite fput_out by (apply not_eq_sym; exact NE).
      change (fun k => if (k <? n_update eq * nfq)%nat then (if c_deformed c then fp_restore nd rs (n_extrap eq) (c_dir c) f1 else f1) k else ldg (c_face c true) k) with (given_back nd rs eq c (n_update eq) f1 (ldg (c_face c true))).
      rewrite quad_given_back by assumption. unfold quad. fold nfq. rewrite <- rsum_plus, <- rsum_scal. apply rsum_ext. intros q Q. rewrite (proj2 (A q v Q V)). ring.
    + rewrite Q0. rewrite fput_out, fput_in by exact NE. unfold quad. fold nfq. rewrite <- rsum_plus, <- rsum_scal. apply rsum_ext. intros q Q. destruct (Nat.ltb_spec (v * nfq + q) (n_update eq * nfq)); [|nia]. rewrite (proj1 (A q v Q V)). ring.
Qed.

(** ** refined faces *)
(** integral of one variable *)
Definition quad1 (n rs : nat) (w : nat -> R) (a : arr) : R := rsum (rs ^ n) (fun q => outer_power rs w n q * a q).
Lemma quad_var n rs w a v : quad n rs w a v = quad1 n rs w (var_of (rs ^ n) v a). Proof. reflexivity. Qed.
Lemma quad_put_var n rs w a v x v' : (0 < rs)%nat -> quad n rs w (put_var (rs ^ n) v x a) v' = if (v' =? v)%nat then quad1 n rs w x else quad n rs w a v'.
Proof.
  intros R. unfold quad, quad1, put_var. destruct (Nat.eqb_spec v' v) as [->|N].
  - apply rsum_ext. intros q Q. rewrite flat_div, flat_mod, Nat.eqb_refl by exact Q. reflexivity.
  - apply rsum_ext. intros q Q. rewrite flat_div by exact Q. destruct (Nat.eqb_spec v' v); [contradiction|reflexivity].
Qed.
(** a face has one dimension less, and its rows are rows of quadrature points *)
Lemma face_rows_eq nd rs id m a : (0 < rs)%nat -> (id < nd - 1)%nat ->
  face_rows nd rs (rs ^ (nd - 2 - id)) m a = loop (rs ^ (nd - 2)) (fun f a => put_row 1 rs (fun i _ => mat_vec rs m (fun j => a (i_qpoint (nth_row (nd - 1) rs id f) j)) i) a (nth_row (nd - 1) rs id f) 0) a.
Proof.
  intros R I. unfold face_rows. set (s := (rs ^ (nd - 2 - id))%nat). assert (SP : (0 < s)%nat) by now apply pow_pos'.
  assert (E : (rs ^ (nd - 1) / (rs * s) = rs ^ id)%nat).
  { replace (nd - 1)%nat with (id + (1 + (nd - 2 - id)))%nat by lia. rewrite Nat.pow_add_r, Nat.pow_add_r, Nat.pow_1_r. fold s. apply Nat.div_mul. nia. }
  rewrite E. replace (rs ^ (nd - 2))%nat with (rs ^ id * s)%nat by (unfold s; rewrite <- Nat.pow_add_r; f_equal; lia). rewrite <- loop_nest.
  apply loop_ext. intros o a' O. apply loop_ext. intros i a2 HI.
  assert (Q : forall j, i_qpoint (nth_row (nd - 1) rs id (o * s + i)) j = ((o * rs + j) * s + i)%nat).
  { intros j. unfold i_qpoint, nth_row. cbn [i_outer i_inner ri_stride ri_row_size]. replace (nd - 1 - 1 - id)%nat with (nd - 2 - id)%nat by lia. fold s. rewrite flat_div, flat_mod by exact HI. nia. }
  unfold put_row. rewrite loop_S, loop_0. cbn [Nat.mul Nat.add]. apply loop_ext. intros j a3 J. rewrite Q. f_equal.
  rewrite Rmult_0_l, Rplus_0_l. f_equal. apply functional_extensionality. intros k. now rewrite Q.
Qed.
Lemma face_rows_value nd rs id m a : (0 < rs)%nat -> (id < nd - 1)%nat -> let qp f j := i_qpoint (nth_row (nd - 1) rs id f) j in
  forall f j, (f < rs ^ (nd - 2))%nat -> (j < rs)%nat -> face_rows nd rs (rs ^ (nd - 2 - id)) m a (qp f j) = mat_vec rs m (fun i => a (qp f i)) j.
Proof.
  intros R I qp. assert (E2 : (nd - 1 - 1 = nd - 2)%nat) by lia.
  set (P := fun n (b : arr) => (forall f j, (f < n)%nat -> (j < rs)%nat -> b (qp f j) = mat_vec rs m (fun i => a (qp f i)) j) /\ (forall f j, (n <= f)%nat -> (j < rs)%nat -> b (qp f j) = a (qp f j))).
  rewrite face_rows_eq by assumption. match goal with |- context [loop ?n ?b a] => assert (L : P n (loop n b a)); [apply (loop_inv P)|] end.
  - split; [intros; lia|intros; reflexivity].
  - intros f b F (A & B). assert (F2 : (f < rs ^ (nd - 1 - 1))%nat) by now rewrite E2. split.
    + intros f' j F' J. destruct (Nat.eq_dec f' f) as [->|N].
      * pose proof (put_row_in (nd - 1) rs id f R I F2 1%nat (fun i _ => mat_vec rs m (fun j => b (i_qpoint (nth_row (nd - 1) rs id f) j)) i) b 0 0%nat j) as X. cbn [Nat.mul Nat.add] in X. unfold qp at 1. rewrite X by (rewrite ?E2; lia). rewrite Rmult_0_l, Rplus_0_l.
        unfold mat_vec. apply rsum_ext. intros i Hi. f_equal. apply (B f i); lia.
      * rewrite <- (A f' j) by lia. apply (put_row_out (nd - 1) rs id f R I F2). intros v j' V J' E. assert (v = 0)%nat by lia. subst v. cbn [Nat.mul Nat.add] in E. apply (qpoint_inj (nd - 1) rs id f j' f' j R I J' J) in E. lia.
    + intros f' j F' J. rewrite <- (B f' j) by lia. apply (put_row_out (nd - 1) rs id f R I F2). intros v j' V J' E. assert (v = 0)%nat by lia. subst v. cbn [Nat.mul Nat.add] in E. apply (qpoint_inj (nd - 1) rs id f j' f' j R I J' J) in E. lia.
  - intros f j F J. now apply L.
Qed.
Lemma rsum_rows n rs id g : (0 < rs)%nat -> (id < n)%nat -> rsum (rs ^ n) g = rsum (rs ^ (n - 1)) (fun f => rsum rs (fun j => g (i_qpoint (nth_row n rs id f) j))).
Proof.
  intros R I. rewrite (rsum_image (rs ^ n) (rs ^ (n - 1) * rs) (fun k => i_qpoint (nth_row n rs id (k / rs)) (k mod rs))).
  - rewrite rsum_mult. apply rsum_ext. intros f F. apply rsum_ext. intros j J. now rewrite flat_div, flat_mod by exact J.
  - intros k K. apply qpoint_lt; try assumption; [apply Nat.div_lt_upper_bound; lia|apply Nat.mod_upper_bound; lia].
  - intros k l K L E. apply qpoint_inj in E; try assumption; try (apply Nat.mod_upper_bound; lia). pose proof (Nat.div_mod k rs). pose proof (Nat.div_mod l rs). destruct E as [E1 E2]. rewrite E1, E2 in *. lia.
  - intros q Q H. exfalso. destruct (in_flat_qpoints n rs id q R I Q) as (f & j & F & J & E). apply (H (f * rs + j)%nat); [nia|]. now rewrite flat_div, flat_mod by exact J.
Qed.
Lemma quad1_rows n rs wt id a : (0 < rs)%nat -> (id < n)%nat -> quad1 n rs wt a = rsum (rs ^ (n - 1)) (fun f => outer_power rs wt (n - 1) f * rsum rs (fun j => wt j * a (i_qpoint (nth_row n rs id f) j))).
Proof.
  intros R I. unfold quad1. rewrite (rsum_rows n rs id) by assumption. apply rsum_ext. intros f F. rewrite <- rsum_scal. apply rsum_ext. intros j J. rewrite weight_row by assumption. ring.
Qed.
Lemma face_rows_quad nd rs wt id m a c : (0 < rs)%nat -> (id < nd - 1)%nat -> (forall r, rsum rs (fun i => wt i * mat_vec rs m r i) = c * rsum rs (fun i => wt i * r i)) ->
  quad1 (nd - 1) rs wt (face_rows nd rs (rs ^ (nd - 2 - id)) m a) = c * quad1 (nd - 1) rs wt a.
Proof.
  intros R I H. rewrite !(quad1_rows (nd - 1) rs wt id) by assumption. rewrite <- rsum_scal. replace (nd - 1 - 1)%nat with (nd - 2)%nat by lia. apply rsum_ext. intros f F.
  rewrite (rsum_ext rs _ (fun j => wt j * mat_vec rs m (fun i => a (i_qpoint (nth_row (nd - 1) rs id f) i)) j)) by (intros; now rewrite face_rows_value). rewrite H. ring.
Qed.
(** both halves together keep the integral when a polynomial is prolonged *)
Lemma face_rows_halves nd rs wt id (ms : nat -> nat -> nat -> R) a : (0 < rs)%nat -> (id < nd - 1)%nat ->
  (forall r, rsum rs (fun i => wt i * mat_vec rs (ms 0%nat) r i) + rsum rs (fun i => wt i * mat_vec rs (ms 1%nat) r i) = 2 * rsum rs (fun i => wt i * r i)) ->
  quad1 (nd - 1) rs wt (face_rows nd rs (rs ^ (nd - 2 - id)) (ms 0%nat) a) + quad1 (nd - 1) rs wt (face_rows nd rs (rs ^ (nd - 2 - id)) (ms 1%nat) a) = 2 * quad1 (nd - 1) rs wt a.
Proof.
  intros R I H. rewrite !(quad1_rows (nd - 1) rs wt id) by assumption. rewrite <- rsum_scal, <- rsum_plus. replace (nd - 1 - 1)%nat with (nd - 2)%nat by lia. apply rsum_ext. intros f F.
  rewrite (rsum_ext rs _ (fun j => wt j * mat_vec rs (ms 0%nat) (fun i => a (i_qpoint (nth_row (nd - 1) rs id f) i)) j)) by (intros; now rewrite face_rows_value).
  rewrite (rsum_ext rs (fun j => wt j * face_rows nd rs (rs ^ (nd - 2 - id)) (ms 1%nat) a (i_qpoint (nth_row (nd - 1) rs id f) j)) (fun j => wt j * mat_vec rs (ms 1%nat) (fun i => a (i_qpoint (nth_row (nd - 1) rs id f) i)) j)) by (intros; now rewrite face_rows_value).
  rewrite <- Rmult_plus_distr_l, H. ring.
Qed.
