(** Positions of deformed elements, and snapping of faces to a surface. *)
From Coq Require Import Reals List Arith Bool Lia Lra.
From Verif Require Import Outcome RSum Tensor_Model Tensor_Spec Tensor_Proofs Basis_Model Basis_Spec Basis_Proofs Quad_Model Quad_Spec Quad_Proofs Spatial_Model Spatial_Spec Free_Spec Jac_Model Jac_Spec Jac_Proofs4 Jac_Proofs5 Snap_Model Snap_Spec Snap_Proofs1 Snap_Proofs2 Snap_Proofs3 Snap_Proofs4.
Import ListNotations.
Local Open Scope R_scope.

(** [Deformed_element::position], with any adjustments on all faces *)
Theorem snap_position : forall nd rs node vert adj q, (2 <= nd <= 3)%nat -> (0 < rs)%nat -> (q < rs ^ nd)%nat -> position nd rs node vert adj q = warped nd rs node vert adj q.
Proof. exact position_warped. Qed.
Print Assumptions snap_position.

(** [Element::face_position] of an element of which one face has adjustments *)
Theorem snap_face_position : forall nd rs node w ratio vert adj d s, (2 <= nd <= 3)%nat -> (2 <= rs)%nat -> distinct rs node -> (d < nd)%nat -> (s < 2)%nat ->
  (forall k, (k / rs ^ (nd - 1) <> 2 * d + s)%nat -> adj k = 0) -> forall s' k, (s' < 2)%nat -> (k < rs ^ (nd - 1))%nat ->
  let M s := multilinear nd vert (on_face_at d s (fun l => node (digit rs (nd - 1) l k))) in
  face_position nd rs (basis_on rs node w ratio) node vert adj (2 * d + s') k = M s' + (if (s' =? s)%nat then adj ((2 * d + s) * rs ^ (nd - 1) + k)%nat * (M 1%nat - M 0%nat) else 0).
Proof.
  intros nd rs node w ratio vert adj d s N RS DI D S FR s' k S' K M. rewrite (face_position_is nd rs node w ratio vert adj N RS DI d s D S FR s' k S' K). f_equal. destruct (s' =? s)%nat; [|reflexivity]. f_equal. unfold tang, M.
  f_equal; apply multilinear_ext; try reflexivity; intros c C; unfold setx, on_face_at; destruct (Nat.ltb_spec c d), (Nat.eqb_spec c d); try lia; reflexivity.
Qed.
Print Assumptions snap_face_position.

(** [Geom_mbc::snap_node_adj] when it reports no problem: in the points of the rule of Lobatto the face is on the surface, at the
    nearest intersection with the line across the element. *)
Theorem snap_surface : forall nd rs node w ratio lob geom nominal_size d s vert adj old, (2 <= nd <= 3)%nat -> (3 <= rs)%nat -> distinct rs node -> distinct (rs - 1) (lob (rs - 1)%nat) -> (d < nd)%nat -> (s < 2)%nat ->
  (forall k, (k / rs ^ (nd - 1) <> 2 * d + s)%nat -> adj k = 0) ->
  let b := basis_on rs node w ratio in
  let res := snap_node_adj nd rs b node lob geom nominal_size d s vert true true old adj in
  let n := (rs - 1)%nat in let y l i := lob n (digit n (nd - 1) i l) in
  snd res = false -> exists t, (forall l, (l < n ^ (nd - 1))%nat -> nearest s (intersections geom (spanned nd vert d 0 (y l)) (spanned nd vert d 1 (y l))) (t l) /\ Rabs (t l - INR s) <= 999 / 1000 /\
    forall r, through (nd - 1) rs node (face_position nd rs b node (vert r) (fst res) (2 * d + s)) (y l)
      = (1 - t l) * multilinear nd (vert r) (on_face_at d 0 (y l)) + t l * multilinear nd (vert r) (on_face_at d 1 (y l))) /\
    ~ steep_at (nd - 1) rs node (through (nd - 1) n (lob n) (fun l => t l - INR s)).
Proof.
  intros nd rs node w ratio lob geom sz d s vert adj old N RS DI DL D S FR b res n y P.
  assert (E : Nat.max 2 (rs - 1) = n) by (unfold n; lia).
  destruct (smooth_result nd rs node w ratio lob geom sz d s vert adj old N ltac:(lia) DI D S FR P) as (t & T & ST & PO). rewrite E in *. exists t. split; [|exact ST].
  intros l L. destruct (T l L) as (T1 & T2). split; [exact T1|]. split; [exact T2|]. intros r. exact (PO RS DL l r L).
Qed.
Print Assumptions snap_surface.

(** It reports a problem only if some line has no intersection near the face or the face would be too steep; then the face is
    as the vertices say, or with more than 3 points per row goes toward the nearest points of the surface. *)
Theorem snap_problem : forall nd rs node w ratio lob geom nominal_size d s vert adj old, (2 <= nd <= 3)%nat -> (2 <= rs)%nat -> distinct rs node -> (d < nd)%nat -> (s < 2)%nat ->
  (forall k, (k / rs ^ (nd - 1) <> 2 * d + s)%nat -> adj k = 0) ->
  let b := basis_on rs node w ratio in
  let res := snap_node_adj nd rs b node lob geom nominal_size d s vert true true old adj in
  let n := Nat.max 2 (rs - 1) in let y n l i := lob n (digit n (nd - 1) i l) in
  let sects l := intersections geom (spanned nd vert d 0 (y n l)) (spanned nd vert d 1 (y n l)) in
  snd res = true ->
  ((exists l, (l < n ^ (nd - 1))%nat /\ forall t, In t (sects l) -> 999 / 1000 < Rabs (t - INR s)) \/
   (exists t, (forall l, (l < n ^ (nd - 1))%nat -> nearest s (sects l) (t l)) /\ steep_at (nd - 1) rs node (through (nd - 1) n (lob n) (fun l => t l - INR s)))) /\
  ((rs <= 3)%nat -> forall k, fst res k = 0) /\
  ((3 < rs)%nat -> distinct 3 (lob 3%nat) -> (forall p h, length (nearest_point geom p h) = nd) -> forall l r, (l < 3 ^ (nd - 1))%nat ->
    let M s' r := multilinear nd (vert r) (on_face_at d s' (y 3%nat l)) in
    let diff r := M 1%nat r - M 0%nat r in
    through (nd - 1) rs node (face_position nd rs b node (vert r) (fst res) (2 * d + s)) (y 3%nat l)
    = M s r + rsum nd (fun r => (nth r (nearest_point geom (spanned nd vert d s (y 3%nat l)) nominal_size) 0 - M s r) * diff r) / (rsum nd (fun r => diff r * diff r) + / 10 ^ 12 * nominal_size) * diff r).
Proof.
  intros nd rs node w ratio lob geom sz d s vert adj old N RS DI D S FR b res n y sects P. split; [|split].
  - exact (problem_reason nd rs node w ratio lob geom sz d s vert adj old N RS DI D S FR P).
  - exact (problem_low nd rs node w ratio lob geom sz d s vert adj old N RS D S FR P).
  - exact (problem_high nd rs node w ratio lob geom sz d s vert adj old N RS DI D S FR P).
Qed.
Print Assumptions snap_problem.

(** The other faces are not touched, and elements that are Cartesian or need no snapping not at all. *)
Theorem snap_elsewhere : forall nd rs b node lob geom nominal_size d s vert deformed needs old adj, (1 <= nd)%nat -> (0 < rs)%nat ->
  let res := snap_node_adj nd rs b node lob geom nominal_size d s vert deformed needs old adj in
  (forall k, (k / rs ^ (nd - 1) <> 2 * d + s)%nat -> fst res k = adj k) /\ (deformed = false \/ needs = false -> res = (adj, old)).
Proof.
  intros nd rs b node lob geom sz d s vert de ne old adj N RS res. split.
  - intros k K. unfold res, snap_node_adj. assert (SO : forall x a, set_adjustments nd rs d s x a k = x k) by (intros x a; unfold set_adjustments, snap_face, snap_nfq; rewrite pow_div by lia; apply Nat.eqb_neq in K; now rewrite K).
    destruct (negb de || negb ne)%bool; [reflexivity|]. cbv zeta. match goal with |- fst (if ?c then _ else _) k = _ => destruct c end; [destruct (3 <? rs)%nat|]; cbn [fst]; now rewrite !SO.
  - intros H. unfold res, snap_node_adj. destruct H as [-> | ->]; [reflexivity|]. now rewrite orb_true_r.
Qed.
Print Assumptions snap_elsewhere.

(** ** an element with a slanted top and a flat wall *)
Definition wall : geometry := {| intersections := fun p0 p1 => [(1 - nth 1 p0 0) / (nth 1 p1 0 - nth 1 p0 0)]; nearest_point := fun p _ => [nth 0 p 0; 1] |}.
Definition slanted (r u : nat) : R := let x d := INR (digit 2 2 d u) in match r with O => x 0%nat | _ => x 1%nat * (1 + x 0%nat / 2) end.
Definition lobatto_few (n i : nat) : R := INR i / (INR n - 1).
Definition gauss3_node (i : nat) : R := 1 / 2 + (INR i - 1) * (sqrt (3 / 5) / 2).
Lemma gauss3_distinct : distinct 3 gauss3_node.
Proof. intros i j I J E. unfold gauss3_node in E. pose proof (sqrt_lt_R0 (3 / 5) ltac:(lra)) as P. apply INR_eq. nra. Qed.
Lemma few_distinct n : (2 <= n)%nat -> distinct n (lobatto_few n).
Proof. intros N i j I J E. unfold lobatto_few in E. pose proof (le_INR 2 n N) as P. cbn in P. apply INR_eq. apply (Rmult_eq_reg_r (/ (INR n - 1))); [exact E|]. apply Rinv_neq_0_compat. lra. Qed.
Lemma slanted_at r s x : multilinear 2 (slanted r) (on_face_at 1 s x) = match r with O => x 0%nat | _ => INR s * (1 + x 0%nat / 2) end.
Proof. unfold multilinear, vertex_weight, slanted, on_face_at. destruct r as [|r]; cbn; field. Qed.
Lemma wall_sect (x : nat -> R) : 0 <= x 0%nat -> intersections wall (spanned 2 slanted 1 0 x) (spanned 2 slanted 1 1 x) = [1 / (1 + x 0%nat / 2)].
Proof. intros X. unfold spanned, wall. cbn [intersections map seq nth]. rewrite !slanted_at. cbn [INR]. f_equal. field. lra. Qed.
Lemma few_digit l : (l < 2)%nat -> lobatto_few 2 (digit 2 1 0 l) = INR l.
Proof. intros L. unfold lobatto_few, digit. destruct l as [|[|l]]; [| |lia]; cbn; field. Qed.
Lemma wall_linear (t : nat -> R) y x : t 0%nat = 1 -> t 1%nat = 2 / 3 -> through 1 2 (lobatto_few 2) (fun l => t l - INR 1) (at_coord y 0 x) = - (x / 3).
Proof. intros T0 T1. unfold through, lagrange_poly, lobatto_few, at_coord. cbn -[Rdiv]. rewrite T0, T1. field. Qed.
Lemma wall_smooth rs node w ratio old : (2 <= rs <= 3)%nat -> distinct rs node ->
  let res := snap_node_adj 2 rs (basis_on rs node w ratio) node lobatto_few wall 1 1 1 slanted true true old (fun _ => 0) in snd res = false.
Proof.
  intros RS D res. destruct (snd res) eqn:P; [exfalso|reflexivity].
  destruct (snap_problem 2 rs node w ratio lobatto_few wall 1 1 1 slanted (fun _ => 0) old ltac:(lia) ltac:(lia) D ltac:(lia) ltac:(lia) (fun _ _ => eq_refl) P) as (R & _). replace (Nat.max 2 (rs - 1)) with 2%nat in R by lia. cbv zeta in R.
  assert (SE : forall l, (l < 2)%nat -> intersections wall (spanned 2 slanted 1 0 (fun i => lobatto_few 2 (digit 2 (2 - 1) i l))) (spanned 2 slanted 1 1 (fun i => lobatto_few 2 (digit 2 (2 - 1) i l))) = [1 / (1 + INR l / 2)]).
  { intros l L. cbn [Nat.sub]. rewrite wall_sect; cbv beta; rewrite few_digit by exact L; [reflexivity|apply pos_INR]. }
  destruct R as [(l & L & F)|(t & T & S)].
  - change (2 ^ (2 - 1))%nat with 2%nat in L. rewrite (SE l L) in F. specialize (F _ (or_introl eq_refl)). revert F. destruct l as [|[|l]]; [| |lia]; cbn [INR].
    + replace (1 / (1 + 0 / 2) - 1) with 0 by field. rewrite Rabs_R0. lra.
    + replace (1 / (1 + 1 / 2) - 1) with (- (1 / 3)) by field. rewrite Rabs_Ropp, Rabs_right by lra. lra.
  - assert (T0 : t 0%nat = 1). { destruct (T 0%nat ltac:(cbn; lia)) as [I _]. rewrite (SE 0%nat) in I by lia. destruct I as [<-|[]]. cbn. field. }
    assert (T1 : t 1%nat = 2 / 3). { destruct (T 1%nat ltac:(cbn; lia)) as [I _]. rewrite (SE 1%nat) in I by lia. destruct I as [<-|[]]. cbn. field. }
    destruct S as [(k & l & E & K & L & DE & G)|(C & _)]; [|discriminate]. replace l with 0%nat in * by (cbn in L; lia). change (2 - 1)%nat with 1%nat in *. cbv zeta in DE.
    assert (DL : derivable_pt_lim (fun x => - (x / 3)) (node (digit rs 1 0 k)) (- / 3)).
    { pose proof (derivable_pt_lim_scal id (- / 3) (node (digit rs 1 0 k)) 1 (derivable_pt_lim_id _)) as H. rewrite Rmult_1_r in H. eapply derivable_pt_lim_ext; [|exact H]. intros z. unfold mult_real_fct, id. field. }
    assert (EE : E = - / 3). { apply (uniqueness_limite (fun x => - (x / 3)) (node (digit rs 1 0 k))); [|exact DL]. eapply derivable_pt_lim_ext; [|exact DE]. intros z. now apply wall_linear. }
    rewrite EE, Rabs_Ropp, Rabs_right in G by lra. lra.
Qed.
(** one point of the top of a square is moved by a tenth *)
Example snap_bump : let node i := (INR i + 1) / 3 in position 2 2 node (fun u => INR (digit 2 2 1 u)) (fun k => if (k =? 7)%nat then 1 / 10 else 0) 3 = 2 / 3 + 2 / 3 * / 10 /\
  position 2 2 node (fun u => INR (digit 2 2 1 u)) (fun k => if (k =? 7)%nat then 1 / 10 else 0) 1 = 2 / 3.
Proof. cbv zeta. rewrite !snap_position by (cbn; lia). unfold warped, multilinear, vertex_weight, foot, at_coord. cbn. lra. Qed.
(** the top of the element is moved to the wall *)
Example snap_example : forall w ratio old, let res := snap_node_adj 2 3 (basis_on 3 gauss3_node w ratio) gauss3_node lobatto_few wall 1 1 1 slanted true true old (fun _ => 0) in
  snd res = false /\ forall l, (l < 2)%nat -> through 1 3 gauss3_node (face_position 2 3 (basis_on 3 gauss3_node w ratio) gauss3_node (slanted 1) (fst res) 3) (fun _ => INR l) = 1 /\
    multilinear 2 (slanted 1) (on_face_at 1 1 (fun _ => INR l)) = 1 + INR l / 2.
Proof.
  intros w ratio old res. assert (P : snd res = false) by (apply wall_smooth; [lia|exact gauss3_distinct]). split; [exact P|]. intros l L. split; [|rewrite slanted_at; cbn [INR]; ring].
  destruct (snap_surface 2 3 gauss3_node w ratio lobatto_few wall 1 1 1 slanted (fun _ => 0) old ltac:(lia) ltac:(lia) gauss3_distinct (few_distinct 2 ltac:(lia)) ltac:(lia) ltac:(lia) (fun _ _ => eq_refl) P) as (t & T & _).
  destruct (T l ltac:(cbn; lia)) as ((I & _) & _ & PO). specialize (PO 1%nat). cbn [Nat.sub] in PO, I. rewrite !slanted_at, few_digit in PO by exact L.
  rewrite wall_sect in I by (rewrite few_digit by exact L; apply pos_INR). rewrite few_digit in I by exact L. destruct I as [I|[]]. pose proof (pos_INR l).
  rewrite (through_ext 1 3 gauss3_node _ (face_position 2 3 (basis_on 3 gauss3_node w ratio) gauss3_node (slanted 1) (fst res) 3) _ (fun i => lobatto_few 2 (digit 2 1 i l))).
  - change (2 * 1 + 1)%nat with 3%nat in PO. etransitivity; [exact PO|]. rewrite <- I. cbn [INR]. field. lra.
  - reflexivity.
  - intros i II. replace i with 0%nat by lia. now rewrite few_digit.
Qed.
Definition gauss2_node (i : nat) : R := 1 / 2 + (INR i - 1 / 2) * sqrt (1 / 3).
Lemma gauss2_distinct : distinct 2 gauss2_node.
Proof. intros i j I J E. unfold gauss2_node in E. pose proof (sqrt_lt_R0 (1 / 3) ltac:(lra)) as P. apply INR_eq. nra. Qed.
(** With two points per row this does not hold: the top is moved, but not to the wall. *)
Theorem snap_two_refuted : ~ (forall nd rs node w ratio lob geom nominal_size d s vert adj old, (2 <= nd <= 3)%nat -> (2 <= rs)%nat -> distinct rs node -> distinct (Nat.max 2 (rs - 1)) (lob (Nat.max 2 (rs - 1))%nat) -> (d < nd)%nat -> (s < 2)%nat ->
  (forall k, (k / rs ^ (nd - 1) <> 2 * d + s)%nat -> adj k = 0) ->
  let b := basis_on rs node w ratio in
  let res := snap_node_adj nd rs b node lob geom nominal_size d s vert true true old adj in
  let n := Nat.max 2 (rs - 1) in let y l i := lob n (digit n (nd - 1) i l) in
  snd res = false -> exists t, (forall l, (l < n ^ (nd - 1))%nat -> nearest s (intersections geom (spanned nd vert d 0 (y l)) (spanned nd vert d 1 (y l))) (t l) /\
    forall r, through (nd - 1) rs node (face_position nd rs b node (vert r) (fst res) (2 * d + s)) (y l)
      = (1 - t l) * multilinear nd (vert r) (on_face_at d 0 (y l)) + t l * multilinear nd (vert r) (on_face_at d 1 (y l)))).
Proof.
  intros H. pose proof gauss2_distinct as DI. pose proof (wall_smooth 2 gauss2_node (fun _ => 1) 1 false ltac:(lia) DI) as P. cbv zeta in P.
  destruct (H 2%nat 2%nat gauss2_node (fun _ => 1) 1 lobatto_few wall 1 1%nat 1%nat slanted (fun _ => 0) false ltac:(lia) ltac:(lia) DI (few_distinct 2 ltac:(lia)) ltac:(lia) ltac:(lia) (fun _ _ => eq_refl) P) as (t & T). clear H.
  destruct (smooth_form 2 2 gauss2_node (fun _ => 1) 1 lobatto_few wall 1 1 1 slanted (fun _ => 0) false ltac:(lia) ltac:(lia) DI ltac:(lia) ltac:(lia) (fun _ _ => eq_refl) P) as (u & U & A & O). cbn [Nat.max Nat.sub] in *.
  set (adj := fst (snap_node_adj 2 2 (basis_on 2 gauss2_node (fun _ => 1) 1) gauss2_node lobatto_few wall 1 1 1 slanted true true false (fun _ => 0))) in *.
  assert (SE : forall l v, (l < 2)%nat -> nearest 1 (intersections wall (spanned 2 slanted 1 0 (fun i => lobatto_few 2 (digit 2 1 i l))) (spanned 2 slanted 1 1 (fun i => lobatto_few 2 (digit 2 1 i l)))) v -> v = 1 / (1 + INR l / 2)).
  { intros l v L [I _]. rewrite wall_sect in I by (rewrite few_digit by exact L; apply pos_INR). rewrite few_digit in I by exact L. destruct I as [I|[]]. now symmetry. }
  destruct (T 1%nat ltac:(cbn; lia)) as (T1 & PO). apply SE in T1; [|lia]. specialize (PO 1%nat). rewrite !slanted_at, few_digit in PO by lia. rewrite T1 in PO.
  assert (U0 : u 0%nat = 1) by (rewrite (SE 0%nat (u 0%nat)); [cbn; field|lia|apply U; cbn; lia]). assert (U1 : u 1%nat = 2 / 3) by (rewrite (SE 1%nat (u 1%nat)); [cbn; field|lia|apply U; cbn; lia]).
  assert (FP : forall k, (k < 2)%nat -> face_position 2 2 (basis_on 2 gauss2_node (fun _ => 1) 1) gauss2_node (slanted 1) adj (2 * 1 + 1) k = 1 + gauss2_node k / 6 - gauss2_node k * gauss2_node k / 6).
  { intros k K. rewrite (snap_face_position 2 2 gauss2_node (fun _ => 1) 1 (slanted 1) adj 1 1 ltac:(lia) ltac:(lia) DI ltac:(lia) ltac:(lia) O 1 k ltac:(lia) K). cbn [Nat.eqb]. rewrite !slanted_at. cbn [Nat.sub] in *. rewrite A by exact K.
    assert (DK : digit 2 1 0 k = k) by (destruct k as [|[|k]]; [reflexivity..|lia]).
    rewrite (through_ext 1 2 (lobatto_few 2) _ (fun l => u l - INR 1) _ (at_coord (fun _ => 0) 0 (gauss2_node k))); [|reflexivity|intros l L; replace l with 0%nat by lia; now rewrite DK].
    rewrite (wall_linear u) by assumption. rewrite DK. cbn [INR]. field. }
  rewrite (through_ext 1 2 gauss2_node _ (fun k => 1 + gauss2_node k / 6 - gauss2_node k * gauss2_node k / 6) _ (fun _ => 1)) in PO.
  - revert PO. unfold through. cbn [Nat.pow Nat.mul Nat.add rsum rprod]. change (digit 2 1 0 0) with 0%nat. change (digit 2 1 0 1) with 1%nat. unfold lagrange_poly. cbn [rprod Nat.eqb].
    assert (N0 : gauss2_node 0 = 1 / 2 - sqrt (1 / 3) / 2) by (unfold gauss2_node; cbn [INR]; field). assert (N1 : gauss2_node 1 = 1 / 2 + sqrt (1 / 3) / 2) by (unfold gauss2_node; cbn [INR]; field). rewrite N0, N1.
    pose proof (sqrt_lt_R0 (1 / 3) ltac:(lra)) as G. pose proof (sqrt_sqrt (1 / 3) ltac:(lra)) as GG. set (g := sqrt (1 / 3)) in *.
    match goal with |- ?a = _ -> _ => replace a with (1 + 1 / 36) end.
    + cbn [INR]. lra.
    + replace (1 / 36) with (1 / 24 - g * g / 24) by (rewrite GG; field). field. lra.
  - exact FP.
  - intros l L. replace l with 0%nat by lia. rewrite few_digit by lia. reflexivity.
Qed.
Print Assumptions snap_two_refuted.
