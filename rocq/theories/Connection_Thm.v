(** C18, C19, C47, C48: orientation of connections between element faces *)
From Coq Require Import Reals ZArith List Arith Lia Bool Lra.
From Verif Require Import Outcome Loop RSum Math_Model Tensor_Spec Connection_Model Connection_Spec Connection_Proofs Connection2_Proofs Connection3_Proofs.
Import ListNotations.
Local Open Scope nat_scope.

(** C18. The lists of vertices of the two faces: those of face 0 in increasing order, those of face 1 once each, and vertices
    at the same position of the lists are glued to each other. *)
Theorem connected_vertices_glued : forall n d, 1 <= n <= 3 -> allowed n d ->
  exists l0 l1, vertex_inds n d = Ok (map Z.of_nat l0, map Z.of_nat l1)
    /\ length l0 = 2 ^ (n - 1) /\ length l1 = 2 ^ (n - 1)
    /\ l0 = filter (fun v => coords 2 n v (dim0 d) =? Nat.b2n (sign0 d)) (seq 0 (2 ^ n))
    /\ NoDup l1 /\ (forall v, In v l1 <-> on_face n (dim1 d) (sign1 d) v)
    /\ forall i, i < 2 ^ (n - 1) -> glued n 1 d (coords 2 n (nth i l0 0)) (coords 2 n (nth i l1 0)).
Proof. exact vertex_inds_glued. Qed.
Print Assumptions connected_vertices_glued.

(** C18. The change of coordinates across the connection is a rotation, and [glued] is what it does to the points of the face. *)
Theorem gluing_is_rotation : forall d, allowed 3 d -> det3 (jac d) = 1%Z.
Proof. exact jac_det. Qed.
Print Assumptions gluing_is_rotation.

Theorem glued_by_rotation : forall n m d x y x' y', n <= 3 -> allowed n d -> glued n m d x y -> glued n m d x' y' ->
  x (dim0 d) = x' (dim0 d) -> y (dim1 d) = y' (dim1 d) ->
  (forall k, k < n -> x k <= m /\ x' k <= m) ->
  forall k, k < n -> (Z.of_nat (y' k) - Z.of_nat (y k)
    = fold_right Z.add 0 (map (fun c => jac d k c * (Z.of_nat (x' c) - Z.of_nat (x c))) (seq 0 n)))%Z.
Proof. exact glued_jac. Qed.
Print Assumptions glued_by_rotation.

(** C18. A normal in the direction of the positive axis is flipped exactly if it does not point from element 0 to element 1:
    the outside of face 0 is in the direction of its sign, the inside of face 1 in the opposite direction of its sign. *)
Theorem flip_normal_points_across : forall d side,
  (if flip_normal d side then -1 else 1)%Z = (if side then - sgn (sign1 d) else sgn (sign0 d))%Z.
Proof. exact flip_normal_sgn. Qed.
Print Assumptions flip_normal_points_across.

(** C18. A Cartesian connection is the deformed connection with the same faces and no flips. *)
Theorem cartesian_direction : forall i_dimension side n, i_dimension < n ->
  cart_i_face i_dimension side = i_face (cart_to_dir i_dimension) side
  /\ flip_normal (cart_to_dir i_dimension) side = false /\ flip_tangential (cart_to_dir i_dimension) = false
  /\ transpose (cart_to_dir i_dimension) = false /\ allowed n (cart_to_dir i_dimension).
Proof.
  intros i side n Hi. unfold cart_i_face, i_face, flip_normal, flip_tangential, transpose, allowed, cart_to_dir; cbn.
  rewrite Nat.eqb_refl. destruct side; cbn; repeat split; try lia; try (right; discriminate);
  destruct i as [|[|[|i]]]; reflexivity.
Qed.
Print Assumptions cartesian_direction.

(** C19. Every point of face 0 has exactly one partner on face 1... *)
Theorem face_partner_unique : forall n rs d f0, 1 <= n <= 3 -> allowed n d -> f0 < rs ^ (n - 1) ->
  exists! f1, f1 < rs ^ (n - 1)
    /\ glued n (rs - 1) d (face_coord (dim0 d) (coords rs (n - 1) f0)) (face_coord (dim1 d) (coords rs (n - 1) f1)).
Proof. exact partner_exists. Qed.
Print Assumptions face_partner_unique.

(** ... [match_faces] moves the partner's data to its place, for every variable, and [restore] undoes that. *)
Theorem match_faces_correct : forall (A : Type) n rs n_var d (l : list A),
  1 <= n <= 3 -> 1 <= rs -> allowed n d -> n_var * rs ^ (n - 1) <= length l ->
  exists l', match_faces n rs n_var d l = Ok l' /\ length l' = length l
    /\ (forall v f0 f1, v < n_var -> f0 < rs ^ (n - 1) -> f1 < rs ^ (n - 1) ->
          glued n (rs - 1) d (face_coord (dim0 d) (coords rs (n - 1) f0)) (face_coord (dim1 d) (coords rs (n - 1) f1)) ->
          nth_error l' (v * rs ^ (n - 1) + f0) = nth_error l (v * rs ^ (n - 1) + f1))
    /\ (forall k, n_var * rs ^ (n - 1) <= k -> nth_error l' k = nth_error l k)
    /\ restore n rs n_var d l' = Ok l.
Proof. exact @match_faces_ok. Qed.
Print Assumptions match_faces_correct.

(** C47. A refined connection with the right number of fine elements: the corners of the coarse face are merged, once each, with
    corners of fine faces at the same place; every mortar face is connected to the fine element at the same place, and no two
    mortar faces to the same one. *)
Theorem refined_connection_conforms : forall n d rev a b, 1 <= n <= 3 -> allowed n d ->
  let str := firstn (n - 1) [a; b] in
  let dc := i_dim d rev in let df := i_dim d (negb rev) in
  exists r, refined_connection n d rev [a; b] (fine_count str) = Ok r
    /\ length (merges r) = 2 ^ (n - 1) /\ NoDup (map (fun m => fst (fst m)) (merges r))
    /\ (forall vc e vf, In (vc, e, vf) (merges r) -> exists c f, vc = Z.of_nat c /\ vf = Z.of_nat f
          /\ on_face n dc (face_sign d rev) c /\ on_face n df (face_sign d (negb rev)) f /\ e < fine_count str
          /\ glued_cf n d rev (fun k => 4 * coords 2 n c k) (face_coord df (fine_corner str e (in_face df (coords 2 n f)))))
    /\ length (fine_cons r) = fine_count str /\ NoDup (fine_cons r) /\ length (mortars r) = 4
    /\ (forall m, m < fine_count str -> exists j e, nth_error (mortars r) m = Some (Some j) /\ nth_error (fine_cons r) j = Some e
          /\ e < fine_count str
          /\ glued_cf n d rev (face_coord dc (fine_centre (firstn (n - 1) (coarse_str r)) m)) (face_coord df (fine_centre str e)))
    /\ (forall m m' j, nth_error (mortars r) m = Some (Some j) -> nth_error (mortars r) m' = Some (Some j) -> m = m')
    /\ (forall m, fine_count str <= m < 4 -> nth_error (mortars r) m = Some None).
Proof. exact refined_ok. Qed.
Print Assumptions refined_connection_conforms.

Theorem refined_connection_wrong_number : forall n d rev a b n_given,
  1 <= n <= 3 -> 0 < n_given -> n_given <> fine_count (firstn (n - 1) [a; b]) -> refined_connection n d rev [a; b] n_given = Throw.
Proof. exact refined_throws. Qed.
Print Assumptions refined_connection_wrong_number.

(** C48. [C i] is the value at corner [i] of the whole face, taken from the fine element that has this corner. After [match] every
    vertex of the fine faces has the multilinear interpolation of the corner values; everything else is unchanged. *)
Theorem hanging_vertices_interpolated : forall n id isp a b vals C, 2 <= n <= 3 -> id < n ->
  let str := firstn (n - 1) [a; b] in
  (forall e v i, e < fine_count str -> on_face n id isp v -> i < 2 ^ (n - 1) ->
     (forall k, k < n - 1 -> fine_corner str e (in_face id (coords 2 n v)) k = 4 * coords 2 (n - 1) i k) -> C i = vals e v) ->
  exists vals', matcher_match n id isp [a; b] (fine_count str) vals = Ok vals'
    /\ (forall e v, e < fine_count str -> on_face n id isp v ->
          vals' e v = rsum (2 ^ (n - 1)) (fun i => rprod (n - 1) (fun k =>
            corner_weight (fine_corner str e (in_face id (coords 2 n v)) k) (coords 2 (n - 1) i k)) * C i)%R)
    /\ (forall e v, ~ (e < fine_count str /\ on_face n id isp v) -> vals' e v = vals e v).
Proof. exact match_ok. Qed.
Print Assumptions hanging_vertices_interpolated.

(** The +x face of one element connected to the -z face of another: the faces are transposed and flipped. *)
Example connection_example :
  let d := mk_dir 0 2 true false in
  vertex_inds 3 d = Ok ([4; 5; 6; 7], [4; 0; 6; 2])%Z
  /\ match_faces 3 3 1 d [0; 1; 2; 10; 11; 12; 20; 21; 22; 99] = Ok [20; 10; 0; 21; 11; 1; 22; 12; 2; 99]
  /\ restore 3 3 1 d [20; 10; 0; 21; 11; 1; 22; 12; 2; 99] = Ok [0; 1; 2; 10; 11; 12; 20; 21; 22; 99]
  /\ (exists r, refined_connection 3 d true [true; false] 2 = Ok r /\ mortars r = [Some 1; Some 0; None; None]
        /\ fine_cons r = [0; 1] /\ coarse_str r = [false; true]).
Proof. cbv zeta. split; [reflexivity|]. split; [reflexivity|]. split; [reflexivity|]. eexists. split; [reflexivity|]. repeat split. Qed.

(** Two fine elements side by side, whose outer corners have the values 0 and 8: the hanging vertex gets 4. *)
Example hanging_example :
  exists vals', matcher_match 2 0 true [false; false] 2 (fun e v => INR (e * 8 + (v - 2) * 0))%R = Ok vals'
    /\ vals' 0 3 = 4%R /\ vals' 1 2 = 4%R /\ vals' 1 3 = 8%R /\ vals' 1 1 = 8%R.
Proof.
  set (vals := fun e v => INR (e * 8 + (v - 2) * 0)).
  destruct (hanging_vertices_interpolated 2 0 true false false vals (fun i => INR (8 * i))) as (vals' & E & H1 & H2); [lia|lia| |].
  { intros e v i He [Hv0 Hv1] Hi Hk. cbn in He, Hi. specialize (Hk 0 ltac:(lia)). unfold vals. f_equal.
    cbn in Hv0. destruct v as [|[|[|[|v]]]]; try (cbn in Hv1; lia); try lia;
      destruct e as [|[|e]]; try lia; destruct i as [|[|i]]; try lia; cbn in Hk; lia. }
  exists vals'. split; [exact E|].
  assert (F : forall e v, e < 2 -> v = 2 \/ v = 3 -> vals' e v = (INR (2 * e + 2 * (v - 2)) * 2)%R).
  { intros e v He Hv. rewrite H1; [|exact He|destruct Hv as [->| ->]; split; cbn; lia].
    destruct Hv as [->| ->], e as [|[|e]]; try lia; unfold corner_weight; cbn; lra. }
  rewrite !F by lia. rewrite H2 by (intros [_ [_ H]]; cbn in H; lia). unfold vals. cbn. repeat split; lra.
Qed.
