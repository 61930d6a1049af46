(** Proofs about the nearest point of discrete surface geometry. *)
From Coq Require Import Reals List Arith Lia Lra Psatz Permutation Bool.
Import ListNotations.
From Verif Require Import RSum GeomPred_Model GeomPred_Spec GeomPred_Proofs Simplex_Model Simplex_Spec.
Local Open Scope R_scope.

Lemma rlt_true a b : rlt a b = true <-> a < b.
Proof. unfold rlt. destruct (Rlt_dec a b); split; intros; auto; try discriminate; contradiction. Qed.
Lemma rle_true a b : rle a b = true <-> a <= b.
Proof. unfold rle. destruct (Rle_dec a b); split; intros; auto; try discriminate; contradiction. Qed.
Lemma rlt_false a b : rlt a b = false <-> b <= a.
Proof. unfold rlt. destruct (Rlt_dec a b); split; intros; auto; try discriminate; lra. Qed.
Lemma rle_false a b : rle a b = false <-> b < a.
Proof. unfold rle. destruct (Rle_dec a b); split; intros; auto; try discriminate; lra. Qed.

(** ** Distances *)
Lemma dist2_sym n p q : dist2 n p q = dist2 n q p.
Proof. apply rsum_ext. intros. ring. Qed.
Lemma dist2_nonneg n p q : 0 <= dist2 n p q.
Proof. apply rsum_nonneg. intros. apply Rle_0_sqr. Qed.
Lemma cauchy n u v : dot n u v * dot n u v <= sqnorm n u * sqnorm n v.
Proof.
  assert (Q : forall t, 0 <= sqnorm n u - 2 * t * dot n u v + t * t * sqnorm n v).
  { intros t. assert (E : sqnorm n (fun i => u i - t * v i) = sqnorm n u - 2 * t * dot n u v + t * t * sqnorm n v).
    { unfold sqnorm, dot. rewrite <- !rsum_scal, <- rsum_minus, <- rsum_plus. apply rsum_ext. intros. ring. }
    rewrite <- E. apply sqnorm_nonneg. }
  pose proof (sqnorm_nonneg n u) as U. pose proof (sqnorm_nonneg n v) as V. set (a := sqnorm n u) in *. set (c := sqnorm n v) in *. set (b := dot n u v) in *.
  clearbody a b c. destruct (Req_EM_T c 0) as [->|NC].
  - destruct (Req_EM_T b 0) as [->|NB]; [lra|]. specialize (Q ((a + 1) / (2 * b))). exfalso. replace (a - 2 * ((a + 1) / (2 * b)) * b + (a + 1) / (2 * b) * ((a + 1) / (2 * b)) * 0) with (-1) in Q by (field; lra). lra.
  - specialize (Q (b / c)). assert (C : 0 < c) by lra. replace (a - 2 * (b / c) * b + b / c * (b / c) * c) with ((a * c - b * b) / c) in Q by (field; lra).
    assert (0 <= a * c - b * b); [|lra]. replace (a * c - b * b) with ((a * c - b * b) / c * c) by (field; lra). apply Rmult_le_pos; lra.
Qed.
Lemma triangle n p q r : sqrt (dist2 n p r) <= sqrt (dist2 n p q) + sqrt (dist2 n q r).
Proof.
  pose proof (dist2_nonneg n p q) as A. pose proof (dist2_nonneg n q r) as B. pose proof (sqrt_pos (dist2 n p q)). pose proof (sqrt_pos (dist2 n q r)).
  apply Rsqr_incr_0_var; [|lra]. rewrite Rsqr_sqrt by apply dist2_nonneg. rewrite Rsqr_plus, !Rsqr_sqrt by assumption.
  set (u := fun i => p i - q i). set (v := fun i => q i - r i).
  assert (E : dist2 n p r = dist2 n p q + dist2 n q r + 2 * dot n u v).
  { unfold dist2, dot. rewrite <- rsum_scal, <- !rsum_plus. apply rsum_ext. intros. unfold u, v. ring. }
  rewrite E. assert (dot n u v <= sqrt (dist2 n p q) * sqrt (dist2 n q r)); [|lra].
  rewrite <- sqrt_mult by assumption. pose proof (cauchy n u v) as C. change (sqnorm n u) with (dist2 n p q) in C. change (sqnorm n v) with (dist2 n q r) in C.
  destruct (Rle_dec (dot n u v) 0) as [D|D]; [apply Rle_trans with 0; [exact D|apply sqrt_pos]|]. rewrite <- (sqrt_square (dot n u v)) by lra. now apply sqrt_le_1_alt.
Qed.

(** ** One step of the search *)
Definition step_ok (n : nat) (q : point) (P : point -> Prop) (a a' : near) : Prop :=
  reference a' = q /\ dist_sq a' <= dist_sq a /\
  (a' = a \/ (empty a' = false /\ P (pnt a') /\ dist_sq a' = dist2 n q (pnt a') /\ dist_sq a' < dist_sq a)) /\ forall p, P p -> dist_sq a' <= dist2 n q p.

Lemma merge_ok n q (P : point -> Prop) a p : reference a = q -> P p -> (forall x, P x -> dist2 n q p <= dist2 n q x) -> step_ok n q P a (merge_point n a p).
Proof.
  intros R H M. unfold merge_point, merge. assert (D : dist_sq (at_point n (reference a) p) = dist2 n q p). { cbn. rewrite R. rewrite dist2_sym. reflexivity. }
  rewrite D. destruct (rlt (dist2 n q p) (dist_sq a)) eqn:L.
  - apply rlt_true in L. split; [exact R|]. rewrite D. split; [lra|]. split; [|exact M]. right. repeat split; auto.
  - apply rlt_false in L. split; [exact R|]. split; [lra|]. split; [now left|]. intros x X. specialize (M x X). lra.
Qed.
Lemma step_seq n q (P Q : point -> Prop) a b c : step_ok n q P a b -> step_ok n q Q b c -> step_ok n q (fun x => P x \/ Q x) a c.
Proof.
  intros (R1 & D1 & C1 & M1) (R2 & D2 & C2 & M2). split; [exact R2|]. split; [lra|]. split.
  - destruct C2 as [->|(E & H & S & L)]; [|right; repeat split; auto; lra]. destruct C1 as [->|(E & H & S & L)]; [now left|right; repeat split; auto].
  - intros x [X|X]; [specialize (M1 x X); lra|now apply M2].
Qed.
Lemma step_grow n q (P Q : point -> Prop) a b : step_ok n q P a b -> (forall x, P x -> Q x) -> (forall x, Q x -> exists y, P y /\ dist2 n q y <= dist2 n q x) -> step_ok n q Q a b.
Proof.
  intros (R & D & C & M) I G. split; [exact R|]. split; [exact D|]. split; [destruct C as [C|(E & H & S & L)]; [now left|right; repeat split; auto]|].
  intros x X. destruct (G x X) as (y & Y & L). specialize (M y Y). lra.
Qed.
(** nothing has to be done for points that are not closer *)
Lemma step_skip n q (P : point -> Prop) a : reference a = q -> (forall x, P x -> dist_sq a <= dist2 n q x) -> step_ok n q P a a.
Proof. intros R M. split; [exact R|]. split; [lra|]. split; [now left|exact M]. Qed.

(** ** Triangles *)
Definition tri (s : simplex) (c d : R) : point := fun i => s 0%nat i + ((s 1%nat i - s 0%nat i) * c + (s 2%nat i - s 0%nat i) * d).
Lemma hull3 s p : in_hull 3 3 s p <-> exists c d, 0 <= c /\ 0 <= d /\ c + d <= 1 /\ forall i, (i < 3)%nat -> p i = tri s c d i.
Proof.
  split.
  - intros (w & W & S & E). exists (w 1%nat), (w 2%nat). assert (W0 := W 0%nat ltac:(lia)). cbn [rsum] in S. repeat split; try (apply W; lia); [lra|].
    intros i I. rewrite E by exact I. cbn [rsum]. unfold tri. replace (w 0%nat) with (1 - w 1%nat - w 2%nat) by lra. ring.
  - intros (c & d & C & D & CD & E). exists (fun j => match j with 0%nat => 1 - c - d | 1%nat => c | _ => d end). split; [|split].
    + intros j J. destruct j as [|[|[|j]]]; lra || lia.
    + cbn [rsum]. lra.
    + intros i I. rewrite E by exact I. cbn [rsum]. unfold tri. ring.
Qed.
Lemma tri_dist s q c d : let u := fun i => s 1%nat i - s 0%nat i in let v := fun i => s 2%nat i - s 0%nat i in let e := fun i => q i - s 0%nat i in
  dist2 3 q (tri s c d) = sqnorm 3 e - 2 * (c * dot 3 u e + d * dot 3 v e) + c * c * dot 3 u u + 2 * c * d * dot 3 u v + d * d * dot 3 v v.
Proof. cbn zeta. unfold dist2, sqnorm, dot, tri. cbn [rsum]. ring. Qed.
Lemma gram_nonneg n u v x y : 0 <= x * x * dot n u u + 2 * x * y * dot n u v + y * y * dot n v v.
Proof.
  assert (E : sqnorm n (fun i => x * u i + y * v i) = x * x * dot n u u + 2 * x * y * dot n u v + y * y * dot n v v).
  { unfold sqnorm, dot. rewrite <- !rsum_scal, <- !rsum_plus. apply rsum_ext. intros. ring. }
  rewrite <- E. apply sqnorm_nonneg.
Qed.
Lemma sqnorm_zero n u : sqnorm n u = 0 -> forall i, (i < n)%nat -> u i = 0.
Proof.
  intros E i I. assert (H : u i * u i = 0) by (apply (rsum_eq_0 n (fun i => u i * u i)); [intros; apply Rle_0_sqr|exact E|exact I]).
  destruct (Rmult_integral _ _ H); assumption.
Qed.

Definition on_edge (s : simplex) (p : point) : Prop := on_segment 3 (s 0%nat) (s 1%nat) p \/ on_segment 3 (s 1%nat) (s 2%nat) p \/ on_segment 3 (s 2%nat) (s 0%nat) p.
Lemma edge_tri s c d : 0 <= c -> 0 <= d -> c + d <= 1 -> (c = 0 \/ d = 0 \/ c + d = 1) -> on_edge s (tri s c d).
Proof.
  intros C D CD [->|[->|E]].
  - right. right. exists (1 - d). split; [lra|]. intros i _. unfold tri, at_param. ring.
  - left. exists c. split; [lra|]. intros i _. unfold tri, at_param. ring.
  - right. left. exists d. split; [lra|]. intros i _. unfold tri, at_param. replace c with (1 - d) by lra. ring.
Qed.
Lemma edge_ext s p p' : (forall i, (i < 3)%nat -> p i = p' i) -> on_edge s p -> on_edge s p'.
Proof.
  intros E. assert (H : forall a b, on_segment 3 a b p -> on_segment 3 a b p'). { intros a b (t & T & F). exists t. split; [exact T|]. intros i I. rewrite <- E by exact I. now apply F. }
  intros [K|[K|K]]; [left|right; left|right; right]; now apply H.
Qed.
Lemma edge_hull s p : on_edge s p -> in_hull 3 3 s p.
Proof.
  intros [(t & T & E)|[(t & T & E)|(t & T & E)]]; apply hull3.
  - exists t, 0. repeat split; try lra. intros i I. rewrite E by exact I. unfold tri, at_param. ring.
  - exists (1 - t), t. repeat split; try lra. intros i I. rewrite E by exact I. unfold tri, at_param. ring.
  - exists 0, (1 - t). repeat split; try lra. intros i I. rewrite E by exact I. unfold tri, at_param. ring.
Qed.
(** on the way from a point of the triangle to a point outside of it there is a point of an edge *)
Lemma exit_time l1 l2 l3 m1 m2 m3 : 0 <= l1 -> 0 <= l2 -> 0 <= l3 -> (m1 < 0 \/ m2 < 0 \/ m3 < 0) ->
  exists t, 0 <= t <= 1 /\ 0 <= l1 + t * (m1 - l1) /\ 0 <= l2 + t * (m2 - l2) /\ 0 <= l3 + t * (m3 - l3) /\
    (l1 + t * (m1 - l1) = 0 \/ l2 + t * (m2 - l2) = 0 \/ l3 + t * (m3 - l3) = 0).
Proof.
  intros L1 L2 L3 M. set (f := fun l m => if Rlt_dec m 0 then l / (l - m) else 1).
  assert (F : forall l m, 0 <= l -> 0 <= f l m <= 1).
  { intros l m L. unfold f. destruct (Rlt_dec m 0); [|lra]. split; [apply Rmult_le_pos; [exact L|left; apply Rinv_0_lt_compat; lra]|].
    apply Rmult_le_reg_r with (l - m); [lra|]. unfold Rdiv. rewrite Rmult_assoc, Rinv_l by lra. lra. }
  assert (G : forall l m t, 0 <= l -> 0 <= t <= f l m -> 0 <= l + t * (m - l)).
  { intros l m t L [T0 T]. unfold f in T. destruct (Rlt_dec m 0) as [N|N].
    - assert (t * (l - m) <= l); [|lra]. replace l with (l / (l - m) * (l - m)) at 2 by (field; lra). apply Rmult_le_compat_r; lra.
    - replace (l + t * (m - l)) with ((1 - t) * l + t * m) by ring. apply Rplus_le_le_0_compat; apply Rmult_le_pos; lra. }
  assert (Z : forall l m, 0 <= l -> m < 0 -> l + f l m * (m - l) = 0).
  { intros l m L N. unfold f. destruct (Rlt_dec m 0); [|lra]. field. lra. }
  assert (ONE : forall l m, f l m < 1 -> m < 0). { intros l m K. unfold f in K. destruct (Rlt_dec m 0); [assumption|lra]. }
  pose proof (F l1 m1 L1) as F1. pose proof (F l2 m2 L2) as F2. pose proof (F l3 m3 L3) as F3.
  set (t := Rmin (f l1 m1) (Rmin (f l2 m2) (f l3 m3))). assert (T : 0 <= t /\ t <= f l1 m1 /\ t <= f l2 m2 /\ t <= f l3 m3 /\ (t = f l1 m1 \/ t = f l2 m2 \/ t = f l3 m3)).
  { unfold t, Rmin. repeat destruct (Rle_dec _ _); lra. }
  clearbody t. destruct T as (T0 & T1 & T2 & T3 & T). exists t. split; [lra|]. split; [apply G; lra|]. split; [apply G; lra|]. split; [apply G; lra|].
  destruct (Rlt_dec t 1) as [LT|GE].
  - destruct T as [E|[E|E]]; [left|right; left|right; right]; rewrite E; apply Z; auto; eapply ONE; rewrite <- E; exact LT.
  - assert (t = 1) by lra. destruct M as [N|[N|N]]; [left|right; left|right; right].
    + replace t with (f l1 m1) by lra. now apply Z.
    + replace t with (f l2 m2) by lra. now apply Z.
    + replace t with (f l3 m3) by lra. now apply Z.
Qed.

Lemma edges_ok nearest s q : reference nearest = q -> step_ok 3 q (on_edge s) nearest (edges nearest s q).
Proof.
  intros R. unfold edges. cbn [seq fold_left].
  change ((0 + 1) mod 3)%nat with 1%nat. change ((1 + 1) mod 3)%nat with 2%nat. change ((2 + 1) mod 3)%nat with 0%nat.
  set (p0 := proj_to_segment 3 (s 0%nat) (s 1%nat) q). set (p1 := proj_to_segment 3 (s 1%nat) (s 2%nat) q). set (p2 := proj_to_segment 3 (s 2%nat) (s 0%nat) q).
  destruct (proj_main 3 (s 0%nat) (s 1%nat) q) as [A0 B0]. destruct (proj_main 3 (s 1%nat) (s 2%nat) q) as [A1 B1]. destruct (proj_main 3 (s 2%nat) (s 0%nat) q) as [A2 B2].
  pose proof (merge_ok 3 q (on_segment 3 (s 0%nat) (s 1%nat)) nearest p0 R A0 B0) as S0.
  pose proof (merge_ok 3 q (on_segment 3 (s 1%nat) (s 2%nat)) _ p1 (proj1 S0) A1 B1) as S1.
  pose proof (merge_ok 3 q (on_segment 3 (s 2%nat) (s 0%nat)) _ p2 (proj1 S1) A2 B2) as S2.
  eapply step_grow; [exact (step_seq _ _ _ _ _ _ _ (step_seq _ _ _ _ _ _ _ S0 S1) S2)| |].
  - intros x [[X|X]|X]; unfold on_edge; auto.
  - intros x X. exists x. split; [|lra]. unfold on_edge in X. tauto.
Qed.

Lemma merge_simplex_ok n nearest s q : n = 2%nat \/ n = 3%nat -> reference nearest = q -> step_ok n q (in_hull n n s) nearest (merge_simplex n nearest s q).
Proof.
  intros [->| ->] R; unfold merge_simplex.
  - cbn [Nat.eqb]. destruct (proj_main 2 (s 0%nat) (s 1%nat) q) as [A B]. eapply step_grow; [exact (merge_ok 2 q (on_segment 2 (s 0%nat) (s 1%nat)) nearest _ R A B)| |].
    + intros x (t & T & E). exists (fun j => match j with 0%nat => 1 - t | _ => t end). split; [intros [|j] J; lra|]. split; [cbn; lra|]. intros i I. rewrite E by exact I. cbn. unfold at_param. ring.
    + intros x (w & W & S & E). exists x. split; [|lra]. exists (w 1%nat). cbn [rsum] in S. pose proof (W 0%nat ltac:(lia)). pose proof (W 1%nat ltac:(lia)). split; [lra|].
      intros i I. rewrite E by exact I. cbn [rsum]. unfold at_param. replace (w 0%nat) with (1 - w 1%nat) by lra. ring.
  - cbn [Nat.eqb]. set (u := fun i => s 1%nat i - s 0%nat i). set (v := fun i => s 2%nat i - s 0%nat i). set (e := fun i => q i - s 0%nat i).
    set (uu := dot 3 u u). set (uv := dot 3 u v). set (vv := dot 3 v v). set (ue := dot 3 u e). set (ve := dot 3 v e).
    assert (DIST : forall c d, dist2 3 q (tri s c d) = sqnorm 3 e - 2 * (c * ue + d * ve) + c * c * uu + 2 * c * d * uv + d * d * vv) by (intros; apply tri_dist).
    assert (GRAM : forall x y, 0 <= x * x * uu + 2 * x * y * uv + y * y * vv) by (intros; apply gram_nonneg).
    destruct (Req_EM_T (uu * vv - uv * uv) 0) as [Z|NZ].
    + (* degenerate: every point is on an edge *)
      eapply step_grow; [now apply edges_ok|apply edge_hull|]. intros x X. exists x. split; [|lra]. apply hull3 in X. destruct X as (c & d & C & D & CD & E).
      apply (edge_ext s (tri s c d)); [intros i I; symmetry; now apply E|]. clear x E. destruct (Req_EM_T uu 0) as [U0|U0].
      * assert (U : forall i, (i < 3)%nat -> u i = 0) by (now apply sqnorm_zero). apply (edge_ext s (tri s 0 d)); [|apply edge_tri; lra].
        intros i I. unfold tri. specialize (U i I). unfold u in U. rewrite U. ring.
      * set (k := uv / uu). assert (V : forall i, (i < 3)%nat -> v i = k * u i).
        { intros i I. assert (S : sqnorm 3 (fun i => v i - k * u i) = 0).
          { replace (sqnorm 3 (fun i => v i - k * u i)) with (vv - 2 * k * uv + k * k * uu) by (unfold vv, uv, uu, sqnorm, dot; cbn [rsum]; ring).
            unfold k. replace (vv - 2 * (uv / uu) * uv + uv / uu * (uv / uu) * uu) with ((uu * vv - uv * uv) / uu) by (field; exact U0). rewrite Z. field. exact U0. }
          pose proof (sqnorm_zero 3 _ S i I) as K. cbn beta in K. lra. }
        assert (T : forall i, (i < 3)%nat -> tri s c d i = s 0%nat i + (c + d * k) * u i).
        { intros i I. unfold tri. fold (u i). fold (v i). rewrite (V i I). ring. }
        destruct (Rle_dec 0 (c + d * k)) as [P|N].
        -- destruct (Rle_dec (c + d * k) 1) as [P1|N1].
           ++ apply (edge_ext s (tri s (c + d * k) 0)); [|apply edge_tri; lra]. intros i I. rewrite T by exact I. unfold tri. fold (u i). ring.
           ++ assert (K : 1 < k). { apply Rnot_le_lt. intros K. apply N1. assert (d * k <= d * 1) by (apply Rmult_le_compat_l; lra). lra. }
              assert (KS : c + d * k <= k). { assert (c * 1 <= c * k) by (apply Rmult_le_compat_l; lra). assert ((c + d) * k <= 1 * k) by (apply Rmult_le_compat_r; lra). lra. }
              assert (KI : 0 < / k) by (apply Rinv_0_lt_compat; lra).
              assert (B : 0 <= (c + d * k) / k <= 1). { split; [apply Rmult_le_pos; lra|]. apply Rmult_le_reg_r with k; [lra|]. unfold Rdiv. rewrite Rmult_assoc, Rinv_l by lra. lra. }
              apply (edge_ext s (tri s 0 ((c + d * k) / k))); [|apply edge_tri; lra]. intros i I. rewrite T by exact I. unfold tri. fold (v i). rewrite (V i I). field. lra.
        -- assert (K : k < 0). { apply Rnot_le_lt. intros K. apply N. assert (0 <= d * k) by (apply Rmult_le_pos; lra). lra. }
           assert (B : 0 <= (c + d * k) / k <= 1).
           { replace ((c + d * k) / k) with (d + c * / k) by (field; lra). assert (KI : / k < 0) by (now apply Rinv_lt_0_compat). assert (c * / k <= 0) by (replace 0 with (c * 0) by ring; apply Rmult_le_compat_l; lra).
             split; [|lra]. replace (d + c * / k) with ((- (c + d * k)) * (- / k)) by (field; lra). apply Rmult_le_pos; lra. }
           apply (edge_ext s (tri s 0 ((c + d * k) / k))); [|apply edge_tri; lra]. intros i I. rewrite T by exact I. unfold tri. fold (v i). rewrite (V i I). field. lra.
    + set (a := (vv * ue - uv * ve) / (uu * vv - uv * uv)). set (b := (uu * ve - uv * ue) / (uu * vv - uv * uv)).
      assert (NE1 : uu * a + uv * b = ue) by (unfold a, b; field; exact NZ). assert (NE2 : uv * a + vv * b = ve) by (unfold a, b; field; exact NZ).
      assert (SPLIT : forall c d, dist2 3 q (tri s c d) = dist2 3 q (tri s a b) + ((c - a) * (c - a) * uu + 2 * (c - a) * (d - b) * uv + (d - b) * (d - b) * vv)).
      { intros c d. rewrite !DIST. rewrite <- NE1, <- NE2. ring. }
      destruct (rle 0 a && rle 0 b && rle (a + b) 1)%bool eqn:INSIDE.
      * apply andb_true_iff in INSIDE. destruct INSIDE as [IN I3]. apply andb_true_iff in IN. destruct IN as [I1 I2]. apply rle_true in I1, I2, I3.
        apply merge_ok; [exact R| |].
        -- apply hull3. exists a, b. repeat split; auto.
        -- intros x X. apply hull3 in X. destruct X as (c & d & C & D & CD & E).
           rewrite (dist2_ext 3 q x q (tri s c d)) by auto. rewrite (SPLIT c d). pose proof (GRAM (c - a) (d - b)). change (dist2 3 q (tri s a b) <= dist2 3 q (tri s a b) + ((c - a) * (c - a) * uu + 2 * (c - a) * (d - b) * uv + (d - b) * (d - b) * vv)). lra.
      * eapply step_grow; [now apply edges_ok|apply edge_hull|]. intros x X. apply hull3 in X. destruct X as (c & d & C & D & CD & E).
        assert (OUT : a < 0 \/ b < 0 \/ 1 - a - b < 0).
        { destruct (rle 0 a) eqn:K1; [|left; now apply rle_false]. destruct (rle 0 b) eqn:K2; [|right; left; now apply rle_false]. cbn in INSIDE. apply rle_false in INSIDE. right. right. lra. }
        destruct (exit_time c d (1 - c - d) a b (1 - a - b) C D ltac:(lra) OUT) as (t & T & P1 & P2 & P3 & PZ).
        exists (tri s (c + t * (a - c)) (d + t * (b - d))). split.
        -- apply edge_tri; [exact P1|exact P2|lra|]. destruct PZ as [PZ|[PZ|PZ]]; [now left|right; now left|right; right; lra].
        -- rewrite (dist2_ext 3 q x q (tri s c d)) by auto. rewrite (SPLIT c d), (SPLIT (c + t * (a - c)) (d + t * (b - d))).
           pose proof (GRAM (c - a) (d - b)) as G. set (g := (c - a) * (c - a) * uu + 2 * (c - a) * (d - b) * uv + (d - b) * (d - b) * vv) in *.
           replace ((c + t * (a - c) - a) * (c + t * (a - c) - a) * uu + 2 * (c + t * (a - c) - a) * (d + t * (b - d) - b) * uv + (d + t * (b - d) - b) * (d + t * (b - d) - b) * vv)
             with ((1 - t) * (1 - t) * g) by (unfold g; ring).
           assert ((1 - t) * (1 - t) * g <= 1 * g); [|lra]. apply Rmult_le_compat_r; [exact G|]. rewrite <- (Rmult_1_l 1) at 3. apply Rmult_le_compat; lra.
Qed.
