(** [snap_node_adj]. *)
From Coq Require Import Reals List Arith Bool Lia Lra FunctionalExtensionality.
From Verif Require Import Outcome RSum Tensor_Model Tensor_Spec Basis_Model Basis_Spec Basis_Proofs Quad_Model Quad_Spec Quad_Proofs Spatial_Model Spatial_Spec Free_Spec Jac_Model Jac_Spec Jac_Proofs4 Snap_Model Snap_Spec Snap_Proofs1 Snap_Proofs2 Snap_Proofs3.
Import ListNotations.
Local Open Scope R_scope.

Lemma nth_choice (P : nat -> R -> Prop) n : (forall l, (l < n)%nat -> exists t, P l t) -> exists t, forall l, (l < n)%nat -> P l (t l).
Proof.
  induction n as [|n IH]; intros H; [exists (fun _ => 0); lia|]. destruct IH as (t & T); [intros l L; apply H; lia|]. destruct (H n ltac:(lia)) as (u & U).
  exists (fun l => if (l =? n)%nat then u else t l). intros l L. destruct (Nat.eqb_spec l n) as [->|]; [exact U|]. apply T. lia.
Qed.
Lemma existsb_far (P : nat -> bool) n : existsb P (seq 0 n) = true <-> exists l, (l < n)%nat /\ P l = true.
Proof. rewrite existsb_exists. split; intros (l & L & E); exists l; (split; [|exact E]); apply in_seq in L || apply in_seq; lia. Qed.
Lemma existsb_near (P : nat -> bool) n : existsb P (seq 0 n) = false <-> forall l, (l < n)%nat -> P l = false.
Proof.
  split.
  - intros E l L. destruct (P l) eqn:X; [|reflexivity]. rewrite <- E. symmetry. apply existsb_far. now exists l.
  - intros H. destruct (existsb P (seq 0 n)) eqn:E; [|reflexivity]. apply existsb_far in E as (l & L & X). rewrite (H l L) in X. discriminate.
Qed.
Lemma dot_map n : forall (x z : nat -> R) k, dot (map x (seq k n)) (map z (seq k n)) = rsum n (fun r => x (k + r)%nat * z (k + r)%nat).
Proof.
  induction n as [|n IH]; intros x z k; [reflexivity|]. rewrite rsum_shift. cbn [seq map]. unfold dot in *. cbn [combine map fold_right fst snd]. rewrite Nat.add_0_r. f_equal. rewrite IH. apply rsum_ext. intros i I. now replace (S k + i)%nat with (k + S i)%nat by lia.
Qed.
Lemma minus_map n (x y : nat -> R) k : minus (map x (seq k n)) (map y (seq k n)) = map (fun r => x r - y r) (seq k n).
Proof. revert k. induction n as [|n IH]; intros k; [reflexivity|]. unfold minus in *. cbn [seq map combine fst snd]. now rewrite IH. Qed.
Lemma map_nth_seq (l : list R) : map (fun r => nth r l 0) (seq 0 (length l)) = l.
Proof. induction l as [|x l IH]; [reflexivity|]. cbn [length seq map nth]. rewrite <- seq_shift, map_map. cbn [nth]. now rewrite IH. Qed.

Section Snap.
Variables (nd rs : nat) (node w : nat -> R) (ratio : R) (lob : nat -> nat -> R) (geom : geometry) (nominal_size : R) (d s : nat) (vert : nat -> arr) (adj : arr) (old : bool).
Hypotheses (N : (2 <= nd <= 3)%nat) (RS : (2 <= rs)%nat) (DI : distinct rs node) (DD : (d < nd)%nat) (SS : (s < 2)%nat).
Local Notation nfq := (rs ^ (nd - 1))%nat.
Local Notation b := (basis_on rs node w ratio).
Local Notation n := (Nat.max 2 (rs - 1)).
Local Notation lobpoint m l := (fun i => lob m (digit m (nd - 1) i l)).
Hypothesis FR : forall k, (k / nfq <> 2 * d + s)%nat -> adj k = 0.
Let adj0 := set_adjustments nd rs d s adj (fun _ => 0).
Let Z k : adj0 k = 0.
Proof. unfold adj0, set_adjustments, snap_face. rewrite nfq_is by lia. destruct (Nat.eqb_spec (k / nfq) (2 * d + s)); [reflexivity|now apply FR]. Qed.
Let sects l := intersections geom (spanned nd vert d 0 (lobpoint n l)) (spanned nd vert d 1 (lobpoint n l)).
Let choice l := choose s (intersections geom (lob_pos nd rs b node lob d vert n adj0 0 l) (lob_pos nd rs b node lob d vert n adj0 1 l)).
Let res := snap_node_adj nd rs b node lob geom nominal_size d s vert true true old adj.
Let N2 : (2 <= n)%nat. Proof. lia. Qed.
Lemma choice_is l : (l < n ^ (nd - 1))%nat -> choice l = choose s (sects l).
Proof. intros L. unfold choice, sects. rewrite !(lob_pos_is nd rs node w ratio lob d s vert) by (assumption || lia). reflexivity. Qed.
Let far := existsb (fun l => rgt (snd (choice l)) (999 / 1000)) (seq 0 (n ^ (nd - 1))).
Let a := apply_cube (from_lob rs node lob n) (n ^ (nd - 1)) (fun l => fst (choice l)).
Lemma res_is : res = if (far || steep nd rs b a)%bool then
    if (3 <? rs)%nat then (set_adjustments nd rs d s adj0 (apply_cube (from_lob rs node lob 3) (3 ^ (nd - 1)) (toward nd rs b node lob geom nominal_size d s vert adj0)), true) else (adj0, true)
  else (set_adjustments nd rs d s adj0 a, false).
Proof. reflexivity. Qed.
Lemma far_is : far = true <-> exists l, (l < n ^ (nd - 1))%nat /\ forall t, In t (sects l) -> 999 / 1000 < Rabs (t - INR s).
Proof.
  unfold far. rewrite existsb_far. split; intros (l & L & H); exists l; (split; [exact L|]); rewrite rgt_true, choice_is in * by exact L; destruct (choose_is s (sects l)) as [(E & A)|(t & (I & NT) & E & T)]; rewrite E in *; cbn [snd] in *.
  - intros t I. specialize (A t I). lra.
  - intros t' I'. specialize (NT t' I'). lra.
  - lra.
  - exact (H t I).
Qed.
Lemma near_is : far = false -> exists t, forall l, (l < n ^ (nd - 1))%nat -> nearest s (sects l) (t l) /\ Rabs (t l - INR s) <= 999 / 1000 /\ fst (choice l) = t l - INR s.
Proof.
  intros F. apply (nth_choice (fun l t => nearest s (sects l) t /\ Rabs (t - INR s) <= 999 / 1000 /\ fst (choice l) = t - INR s)). intros l L. unfold far in F. rewrite existsb_near in F. specialize (F l L). apply rgt_false in F. rewrite choice_is in * by exact L.
  destruct (choose_is s (sects l)) as [(E & A)|(t & NT & E & T)]; rewrite E in *; cbn [fst snd] in *; [lra|]. now exists t.
Qed.
Lemma steep_through h : (forall k, (k < nfq)%nat -> a k = through (nd - 1) n (lob n) h (fun i => node (digit rs (nd - 1) i k))) -> (n <= rs)%nat -> (steep nd rs b a = true <-> steep_at (nd - 1) rs node (through (nd - 1) n (lob n) h)).
Proof.
  intros H L. apply (steep_is nd rs node w ratio d s); try assumption.
  - intros y y' E. now apply through_ext.
  - intros y l LL. apply (poly_weaken_le n); [exact L|]. apply through_poly; lia.
Qed.
Lemma a_is t : (forall l, (l < n ^ (nd - 1))%nat -> fst (choice l) = t l - INR s) -> forall k, (k < nfq)%nat -> a k = through (nd - 1) n (lob n) (fun l => t l - INR s) (fun i => node (digit rs (nd - 1) i k)).
Proof. intros T k K. unfold a. rewrite (from_lob_is nd rs node lob d s) by (assumption || lia). now apply through_ext. Qed.
Let NR : (n <= rs)%nat. Proof. lia. Qed.

Lemma problem_reason : snd res = true -> (exists l, (l < n ^ (nd - 1))%nat /\ forall t, In t (sects l) -> 999 / 1000 < Rabs (t - INR s)) \/
  (exists t, (forall l, (l < n ^ (nd - 1))%nat -> nearest s (sects l) (t l)) /\ steep_at (nd - 1) rs node (through (nd - 1) n (lob n) (fun l => t l - INR s))).
Proof.
  rewrite res_is. destruct far eqn:F; [intros _; left; now apply far_is|]. destruct (near_is F) as (t & T). cbn [orb]. destruct (steep nd rs b a) eqn:S; [|discriminate]. intros _. right. exists t. split; [intros l L; now apply T|].
  apply (steep_through (fun l => t l - INR s)); [|exact NR|exact S]. apply a_is. intros l L. now apply T.
Qed.
Lemma smooth_result : snd res = false -> exists t, (forall l, (l < n ^ (nd - 1))%nat -> nearest s (sects l) (t l) /\ Rabs (t l - INR s) <= 999 / 1000) /\
  ~ steep_at (nd - 1) rs node (through (nd - 1) n (lob n) (fun l => t l - INR s)) /\
  ((3 <= rs)%nat -> distinct n (lob n) -> forall l r, (l < n ^ (nd - 1))%nat -> through (nd - 1) rs node (face_position nd rs b node (vert r) (fst res) (2 * d + s)) (lobpoint n l)
    = (1 - t l) * multilinear nd (vert r) (on_face_at d 0 (lobpoint n l)) + t l * multilinear nd (vert r) (on_face_at d 1 (lobpoint n l))).
Proof.
  rewrite res_is. destruct far eqn:F; cbn [orb]; [destruct (3 <? rs)%nat; discriminate|]. destruct (near_is F) as (t & T). destruct (steep nd rs b a) eqn:S; [destruct (3 <? rs)%nat; discriminate|]. intros _. exists t. split; [intros l L; destruct (T l L) as (T1 & T2 & _); now split|]. split.
  - intros X. apply (steep_through (fun l => t l - INR s)) in X; [congruence| |exact NR]. apply a_is. intros l L. now apply T.
  - intros R3 DN l r L. cbn [fst]. unfold a. rewrite (snapped_at nd rs node w ratio lob d s vert N RS DI DD SS adj0 Z n _ r l N2 ltac:(lia) DN L). destruct (T l L) as (_ & _ & ->). destruct s as [|[|]]; [| |lia]; cbn [INR]; ring.
Qed.
Lemma smooth_form : snd res = false -> exists t, (forall l, (l < n ^ (nd - 1))%nat -> nearest s (sects l) (t l)) /\
  (forall k, (k < nfq)%nat -> fst res ((2 * d + s) * nfq + k)%nat = through (nd - 1) n (lob n) (fun l => t l - INR s) (fun i => node (digit rs (nd - 1) i k))) /\ (forall k, (k / nfq <> 2 * d + s)%nat -> fst res k = 0).
Proof.
  rewrite res_is. destruct far eqn:F; cbn [orb]; [destruct (3 <? rs)%nat; discriminate|]. destruct (near_is F) as (t & T). destruct (steep nd rs b a) eqn:S; [destruct (3 <? rs)%nat; discriminate|]. intros _. exists t. split; [intros l L; now apply T|]. cbn [fst]. split.
  - intros k K. rewrite (set_at nd rs d s) by (assumption || lia). apply a_is; [|exact K]. intros l L. now apply T.
  - intros k K. rewrite (set_other nd rs d s) by (assumption || lia). apply Z.
Qed.
Lemma problem_low : snd res = true -> (rs <= 3)%nat -> forall k, fst res k = 0.
Proof.
  rewrite res_is. intros P R3 k. replace (3 <? rs)%nat with false in * by (symmetry; apply Nat.ltb_ge; exact R3). destruct (far || steep nd rs b a)%bool; [apply Z|discriminate].
Qed.
Lemma problem_high : snd res = true -> (3 < rs)%nat -> distinct 3 (lob 3) -> (forall p h, length (nearest_point geom p h) = nd) -> forall l r, (l < 3 ^ (nd - 1))%nat ->
  let M s' r := multilinear nd (vert r) (on_face_at d s' (lobpoint 3 l)) in
  let diff r := M 1%nat r - M 0%nat r in
  through (nd - 1) rs node (face_position nd rs b node (vert r) (fst res) (2 * d + s)) (lobpoint 3 l)
  = M s r + rsum nd (fun r => (nth r (nearest_point geom (spanned nd vert d s (lobpoint 3 l)) nominal_size) 0 - M s r) * diff r) / (rsum nd (fun r => diff r * diff r) + / 10 ^ 12 * nominal_size) * diff r.
Proof.
  rewrite res_is. intros P R3 D3 LN l r L M diff. replace (3 <? rs)%nat with true in * by (symmetry; apply Nat.ltb_lt; exact R3). destruct (far || steep nd rs b a)%bool; [|discriminate]. cbn [fst].
  rewrite (snapped_at nd rs node w ratio lob d s vert N RS DI DD SS adj0 Z 3 _ r l ltac:(lia) ltac:(lia) D3 L). fold (M s r). fold (M 1%nat r) (M 0%nat r). fold (diff r). f_equal. f_equal. unfold toward.
  rewrite !(lob_pos_is nd rs node w ratio lob d s vert) by (assumption || lia). set (np := nearest_point geom (spanned nd vert d s (lobpoint 3 l)) nominal_size).
  assert (NP : np = map (fun r => nth r np 0) (seq 0 nd)) by (rewrite <- (LN (spanned nd vert d s (lobpoint 3 l)) nominal_size) at 1; fold np; symmetry; apply map_nth_seq).
  assert (DF : minus (spanned nd vert d 1 (lobpoint 3 l)) (spanned nd vert d 0 (lobpoint 3 l)) = map diff (seq 0 nd)) by exact (minus_map nd (M 1%nat) (M 0%nat) 0).
  assert (NM : minus np (spanned nd vert d s (lobpoint 3 l)) = map (fun r => nth r np 0 - M s r) (seq 0 nd)) by (rewrite NP at 1; exact (minus_map nd (fun r => nth r np 0) (M s) 0)).
  cbv zeta. rewrite DF, NM, !dot_map. reflexivity.
Qed.
End Snap.
