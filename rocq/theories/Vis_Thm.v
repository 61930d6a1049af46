(** Property theorems: C97 (samples of elements for visualization) and C98 (bounds of fields). *)
From Coq Require Import Reals List Arith Bool Lia Lra.
From Verif Require Import Outcome RSum Tensor_Spec Row_Spec Basis_Model Basis_Spec Basis_Proofs Snap_Spec Snap_Proofs2 Vis_Model Vis_Spec Vis_Proofs1 Vis_Proofs2.
From Verif Require Basis_Thm.
Import ListNotations.
Local Open Scope R_scope.

(** C97. [through] is the polynomial of the element: it has the given values in the quadrature points, and every function that
    is in each coordinate a polynomial of degree less than the row size is the one through its values. *)
Theorem vis_polynomial : forall n rs node, (0 < rs)%nat -> distinct rs node ->
  (forall val q, (q < rs ^ n)%nat -> through n rs node val (fun d => node (digit rs n d q)) = val q) /\
  (forall val, polynomial_in_each n rs (through n rs node val)) /\
  (forall F val y, polynomial_in_each n rs F -> (forall q, (q < rs ^ n)%nat -> val q = F (fun d => node (digit rs n d q))) -> through n rs node val y = F y).
Proof.
  intros n rs node RS D. split; [intros val q Q; now apply through_node|]. split.
  - intros val. split; [intros y y' E; now apply through_ext|]. intros y d DD. apply poly_polynomial. now apply through_poly.
  - intros F val y (EX & P) H. rewrite (through_ext n rs node val (fun q => F (fun d => node (digit rs n d q))) y y H) by reflexivity.
    apply through_exact; try assumption. intros y' d DD. destruct (P y' d DD) as (c & C). apply (poly_ext rs (polynomial rs c)); [apply poly_coefficients|]. intros x. symmetry. apply C.
Qed.
Print Assumptions vis_polynomial.

(** C97. What the constructor stores: variable [v] in quadrature point [q] is entry [v] of what the function gave there. *)
Theorem vis_fetch : forall nd rs n_var node boundary func, (0 < rs)%nat -> (forall q, (q < rs ^ nd)%nat -> length (func q) = n_var) ->
  exists d, fetch nd rs n_var node boundary func = Ok d /\ v_dim d = nd /\ v_row_size d = rs /\ v_var d = n_var /\ v_node d = node /\ v_boundary d = boundary /\
  forall v q, (v < n_var)%nat -> (q < rs ^ nd)%nat -> variable d v q = nth v (func q) 0.
Proof. exact fetch_ok. Qed.
Print Assumptions vis_fetch.

(** C97. [interior] evaluates the polynomials of the variables at the points of the uniform block. *)
Theorem vis_interior : forall d fuel n_sample, let nd := v_dim d in let rs := v_row_size d in
  (1 <= nd <= fuel)%nat -> (2 <= rs)%nat -> (1 <= n_sample)%nat ->
  exists out, interior fuel d n_sample = Ok (n_sample ^ nd * v_var d, out)%nat /\
  forall v i, (v < v_var d)%nat -> (i < n_sample ^ nd)%nat -> out (v * n_sample ^ nd + i)%nat = through nd rs (v_node d) (variable d v) (block_point n_sample nd i).
Proof. intros d fuel n nd rs N RS NS. apply interior_ok; lia. Qed.
Print Assumptions vis_interior.

(** C97. [face] evaluates them at the points of the uniform block of the face. *)
Theorem vis_face : forall d fuel i_dim is_positive n_sample, let nd := v_dim d in let rs := v_row_size d in
  (2 <= nd <= fuel)%nat -> (2 <= rs)%nat -> (1 <= n_sample)%nat -> (i_dim < nd)%nat -> distinct rs (v_node d) -> ends rs (v_node d) (v_boundary d) ->
  exists out, face fuel d i_dim is_positive n_sample = Ok (n_sample ^ (nd - 1) * v_var d, out)%nat /\
  forall v i, (v < v_var d)%nat -> (i < n_sample ^ (nd - 1))%nat ->
    out (v * n_sample ^ (nd - 1) + i)%nat = through nd rs (v_node d) (variable d v) (on_face_at i_dim (Nat.b2n is_positive) (block_point n_sample (nd - 1) i)).
Proof. intros d fuel a s n nd rs N RS NS A D E. apply face_ok; assumption || lia. Qed.
Print Assumptions vis_face.

(** C97. [edges] evaluates them at uniform points of the edges: first the edges in direction 0, then those in direction 1... *)
Theorem vis_edges : forall d fuel n_sample, let nd := v_dim d in let rs := v_row_size d in
  (2 <= nd <= fuel)%nat -> (2 <= rs)%nat -> (1 <= n_sample)%nat -> distinct rs (v_node d) -> ends rs (v_node d) (v_boundary d) ->
  exists out, edges fuel d n_sample = Ok (v_var d * n_sample * (2 ^ (nd - 1) * nd), out)%nat /\
  forall i_dim v j s, (i_dim < nd)%nat -> (v < v_var d)%nat -> (j < 2 ^ (nd - 1))%nat -> (s < n_sample)%nat ->
    out (((i_dim * 2 ^ (nd - 1) + j) * v_var d + v) * n_sample + s)%nat = through nd rs (v_node d) (variable d v) (edge_point nd n_sample i_dim j s).
Proof. intros d fuel n nd rs N RS NS D E. apply edges_ok; assumption || lia. Qed.
Print Assumptions vis_edges.

(** C97. [sample] evaluates them at the given points. *)
Theorem vis_sample : forall d ref_coords i_var i_sample, (2 <= v_row_size d)%nat ->
  sample d ref_coords i_var i_sample = Ok (through (v_dim d) (v_row_size d) (v_node d) (variable d i_var) (fun k => ref_coords k i_sample)).
Proof. intros d ref v i RS. now apply sample_ok. Qed.
Print Assumptions vis_sample.

(** C97. In one dimension neither [face] nor [edges] returns: no number of recursive calls is enough. ([Solver] asserts that
    there are more dimensions before it calls them.) *)
Theorem vis_one_dim : forall d fuel n_sample is_positive, v_dim d = 1%nat -> (2 <= v_row_size d)%nat -> (1 <= v_var d)%nat -> (1 <= n_sample)%nat ->
  face fuel d 0 is_positive n_sample = NoFuel /\ edges fuel d n_sample = NoFuel.
Proof. intros d fuel n s D RS V N. now apply one_dim. Qed.
Print Assumptions vis_one_dim.

(** C98. The bounds of a field are the least and the greatest of the sampled values of all elements, if there is an element
    and the values are representable. *)
Theorem bounds_field_extremes : forall fuel big elems nd n_var n_sample, (1 <= nd <= fuel)%nat -> (1 <= n_sample)%nat -> elems <> [] ->
  (forall e, In e elems -> v_dim e = nd /\ v_var e = n_var /\ (2 <= v_row_size e)%nat) ->
  let sampled v x := exists e i, In e elems /\ (i < n_sample ^ nd)%nat /\ x = through nd (v_row_size e) (v_node e) (variable e v) (block_point n_sample nd i) in
  (forall v x, (v < n_var)%nat -> sampled v x -> - big <= x <= big) ->
  exists bounds, bounds_field fuel big elems nd n_var n_sample = Ok bounds /\ forall v, (v < n_var)%nat -> extremes (sampled v) (fst (bounds v)) (snd (bounds v)).
Proof.
  intros fuel big elems nd n_var n N NS NE EL sampled BI.
  assert (EQ : forall v x, taken nd n elems v x <-> sampled v x).
  { intros v x. split; intros (e & i & I & J & X); exists e, i; (split; [exact I|split; [exact J|]]); rewrite X; unfold value; now rewrite (proj1 (EL e I)). }
  destruct (bounds_ok fuel big nd n_var n N NS elems EL) as (b & E & H).
  { intros v x V T. apply (BI v x V). now apply EQ. }
  exists b. split; [exact E|]. intros v V. destruct (H v V) as [(X & _)|(A & B & C)]; [contradiction|]. split; [now apply EQ|split; [now apply EQ|]]. intros x X. apply C. now apply EQ.
Qed.
Print Assumptions bounds_field_extremes.

(** A square element of two variables and row size 2 with nodes at the corners. Sampled with 3 points per direction, the centre
    of the second variable is the mean of the corners; the end of the last edge is the last corner; the bounds are those of the corners. *)
Definition square : vis := mk_vis 2 2 2 (equidistant_node 2) (equidistant_boundary 2) (fun k => match k with 4%nat => 1 | 5%nat => 2 | 6%nat => 5 | 7%nat => 8 | _ => 0 end).
Lemma square_through y : through 2 2 (v_node square) (variable square 1) y = (1 - y 0%nat) * (1 - y 1%nat) + 2 * ((1 - y 0%nat) * y 1%nat) + 5 * (y 0%nat * (1 - y 1%nat)) + 8 * (y 0%nat * y 1%nat).
Proof. unfold through, digit, lagrange_poly. cbn. unfold variable, equidistant_node. cbn. field. Qed.
Example square_samples :
  (exists out, interior 5 square 3 = Ok (18%nat, out) /\ out 13%nat = 4) /\ (exists out, edges 5 square 3 = Ok (24%nat, out) /\ out 23%nat = 8 /\ out 22%nat = 13 / 2) /\
  (exists out, face 5 square 0 true 3 = Ok (6%nat, out) /\ out 4%nat = 13 / 2) /\ sample square (fun _ _ => 1 / 2) 1 0 = Ok 4.
Proof.
  assert (D : distinct 2 (v_node square)) by (apply (Basis_Thm.basis_equidistant 2); lia).
  assert (B : ends 2 (v_node square) (v_boundary square)). { intros s c S. destruct (Basis_Thm.basis_equidistant 2 ltac:(lia)) as (_ & _ & _ & _ & H). cbn [v_node v_boundary square]. rewrite H. destruct s as [|[|s]]; [reflexivity..|lia]. }
  pose proof square_through as T.
  split; [|split; [|split]].
  - destruct (vis_interior square 5 3 ltac:(cbn; lia) ltac:(cbn; lia) ltac:(lia)) as (out & E & H). exists out. split; [exact E|]. etransitivity; [exact (H 1%nat 4%nat ltac:(cbn; lia) ltac:(cbn; lia))|]. etransitivity; [exact (T _)|]. unfold block_point, uniform, digit. cbn. lra.
  - destruct (vis_edges square 5 3 ltac:(cbn; lia) ltac:(cbn; lia) ltac:(lia) D B) as (out & E & H). exists out. split; [exact E|].
    split; [etransitivity; [exact (H 1%nat 1%nat 1%nat 2%nat ltac:(cbn; lia) ltac:(cbn; lia) ltac:(cbn; lia) ltac:(lia))|]|etransitivity; [exact (H 1%nat 1%nat 1%nat 1%nat ltac:(cbn; lia) ltac:(cbn; lia) ltac:(cbn; lia) ltac:(lia))|]]; (etransitivity; [exact (T _)|]; unfold edge_point, uniform, digit; cbn; lra).
  - destruct (vis_face square 5 0 true 3 ltac:(cbn; lia) ltac:(cbn; lia) ltac:(lia) ltac:(cbn; lia) D B) as (out & E & H). exists out. split; [exact E|]. etransitivity; [exact (H 1%nat 1%nat ltac:(cbn; lia) ltac:(cbn; lia))|]. etransitivity; [exact (T _)|]. unfold on_face_at, block_point, uniform, digit. cbn. lra.
  - rewrite vis_sample by (cbn; lia). f_equal. etransitivity; [exact (T _)|]. lra.
Qed.
Example square_bounds : exists bounds, bounds_field 5 100 [square] 2 2 3 = Ok bounds /\ bounds 1%nat = (1, 8).
Proof.
  assert (Z : forall y, through 2 2 (v_node square) (variable square 0) y = 0) by (intros y; unfold through, digit, lagrange_poly; cbn; unfold variable; cbn; ring).
  assert (V : forall i, (i < 9)%nat -> 1 <= through 2 2 (v_node square) (variable square 1) (block_point 3 2 i) <= 8).
  { intros i I. rewrite square_through. do 9 (destruct i as [|i]; [unfold block_point, uniform, digit; cbn; lra|]). lia. }
  destruct (bounds_field_extremes 5 100 [square] 2 2 3 ltac:(lia) ltac:(lia) ltac:(discriminate)) as (b & E & H).
  - intros e [<-|[]]. cbn. lia.
  - intros v x L (e & i & [<-|[]] & I & ->). change (v_row_size square) with 2%nat. destruct v as [|[|v]]; [rewrite Z; lra|pose proof (V i I); lra|lia].
  - exists b. split; [exact E|]. destruct (H 1%nat ltac:(lia)) as ((e & i & [<-|[]] & I & X) & (e' & i' & [<-|[]] & I' & X') & C). change (v_row_size square) with 2%nat in *.
    destruct (C 1) as (A & _). { exists square, 0%nat. split; [now left|split; [cbn; lia|]]. change (v_row_size square) with 2%nat. rewrite square_through. unfold block_point, uniform, digit. cbn. lra. }
    destruct (C 8) as (_ & B). { exists square, 8%nat. split; [now left|split; [cbn; lia|]]. change (v_row_size square) with 2%nat. rewrite square_through. unfold block_point, uniform, digit. cbn. lra. }
    pose proof (V i I). pose proof (V i' I'). destruct (b 1%nat) as (lo & hi). cbn [fst snd] in *. f_equal; lra.
Qed.
