From Coq Require Import ZArith List Arith Lia Bool.
From Verif Require Import Outcome ListUtil Loop Math_Model Tensor_Model Tensor_Spec Tensor_Proofs Connection_Model Connection_Spec.
Import ListNotations.

(** * Finite enumeration of the allowed directions *)

Definition bools := [false; true].
Definition all_dirs (n : nat) : list direction :=
  flat_map (fun a => flat_map (fun b => flat_map (fun s => map (fun t => mk_dir a b s t) bools) bools) (seq 0 n)) (seq 0 n).
Definition allowed_b (d : direction) : bool := negb (dim0 d =? dim1 d) || negb (Bool.eqb (sign0 d) (sign1 d)).
Definition allowed_dirs n := filter allowed_b (all_dirs n).

Lemma in_bools b : In b bools.
Proof. destruct b; cbn; auto. Qed.

Lemma allowed_in n d : allowed n d -> In d (allowed_dirs n).
Proof.
  intros (Ha & Hb & Hc). apply filter_In. split.
  - apply in_flat_map. exists (dim0 d). split; [apply in_seq; lia|].
    apply in_flat_map. exists (dim1 d). split; [apply in_seq; lia|].
    apply in_flat_map. exists (sign0 d). split; [apply in_bools|].
    apply in_map_iff. exists (sign1 d). split; [destruct d; reflexivity|apply in_bools].
  - unfold allowed_b. destruct Hc as [Hc|Hc].
    + apply Nat.eqb_neq in Hc. rewrite Hc. reflexivity.
    + destruct (sign0 d), (sign1 d); try congruence; now rewrite ?orb_true_r.
Qed.

Lemma all_allowed (P : nat -> direction -> bool) :
  forallb (fun n => forallb (P n) (allowed_dirs n)) [1; 2; 3] = true ->
  forall n d, 1 <= n <= 3 -> allowed n d -> P n d = true.
Proof.
  intros H n d Hn Hd. rewrite forallb_forall in H.
  assert (In n [1; 2; 3]) by (cbn; lia).
  specialize (H n H0). rewrite forallb_forall in H. apply H, allowed_in, Hd.
Qed.

(** * Boolean versions of the specification *)

Definition glued_b (n m : nat) (d : direction) (x y : nat -> nat) : bool :=
  forallb (fun k => (k =? dim0 d) || (k =? dim1 d) || (y k =? x k)) (seq 0 n)
  && ((dim0 d =? dim1 d) || (y (dim0 d) =? if Bool.eqb (sign0 d) (sign1 d) then x (dim1 d) else m - x (dim1 d))).
Lemma glued_b_ok n m d x y : glued_b n m d x y = true -> glued n m d x y.
Proof.
  unfold glued_b, glued. rewrite andb_true_iff, forallb_forall. intros [H1 H2]. split.
  - intros k Hk Ha Hb. specialize (H1 k ltac:(apply in_seq; lia)).
    apply Nat.eqb_neq in Ha, Hb. rewrite Ha, Hb in H1. now apply Nat.eqb_eq.
  - intros Hab. apply Nat.eqb_neq in Hab. rewrite Hab in H2. now apply Nat.eqb_eq.
Qed.

Definition face_verts (n a : nat) (s : bool) : list nat := filter (fun v => coords 2 n v a =? Nat.b2n s) (seq 0 (2 ^ n)).
Lemma face_verts_spec n a s v : In v (face_verts n a s) <-> on_face n a s v.
Proof.
  unfold face_verts, on_face. rewrite filter_In, in_seq, Nat.eqb_eq. intuition lia.
Qed.

Definition list_eqb (l l' : list nat) : bool := if list_eq_dec Nat.eq_dec l l' then true else false.
Lemma list_eqb_ok l l' : list_eqb l l' = true -> l = l'.
Proof. unfold list_eqb. now destruct list_eq_dec. Qed.
Definition zlist_eqb (l l' : list Z) : bool := if list_eq_dec Z.eq_dec l l' then true else false.
Lemma zlist_eqb_ok l l' : zlist_eqb l l' = true -> l = l'.
Proof. unfold zlist_eqb. now destruct list_eq_dec. Qed.
Fixpoint nodup_b (l : list nat) : bool := match l with [] => true | x :: l => negb (existsb (Nat.eqb x) l) && nodup_b l end.
Lemma existsb_In x l : existsb (Nat.eqb x) l = true <-> In x l.
Proof.
  rewrite existsb_exists. split.
  - intros (y & Hy & E). apply Nat.eqb_eq in E. now subst.
  - intros H. exists x. split; [assumption|apply Nat.eqb_refl].
Qed.
Lemma nodup_b_ok l : nodup_b l = true -> NoDup l.
Proof.
  induction l as [|x l IH]; cbn; intros H; constructor.
  - apply andb_true_iff in H. destruct H as [H _]. intros Hi. apply existsb_In in Hi. rewrite Hi in H. discriminate.
  - apply IH. apply andb_true_iff in H. tauto.
Qed.
Definition incl_b (l l' : list nat) := forallb (fun x => existsb (Nat.eqb x) l') l.
Lemma incl_b_ok l l' : incl_b l l' = true -> forall x, In x l -> In x l'.
Proof. unfold incl_b. rewrite forallb_forall. intros H x Hx. now apply existsb_In, H. Qed.

Definition check_verts (n : nat) (d : direction) : bool :=
  match vertex_inds n d with
  | Ok (z0, z1) =>
      let l0 := map Z.to_nat z0 in let l1 := map Z.to_nat z1 in
      zlist_eqb z0 (map Z.of_nat l0) && zlist_eqb z1 (map Z.of_nat l1)
      && list_eqb l0 (face_verts n (dim0 d) (sign0 d))
      && (length l1 =? 2 ^ (n - 1)) && (length l0 =? 2 ^ (n - 1)) && nodup_b l1
      && incl_b l1 (face_verts n (dim1 d) (sign1 d)) && incl_b (face_verts n (dim1 d) (sign1 d)) l1
      && forallb (fun i => glued_b n 1 d (coords 2 n (nth i l0 0)) (coords 2 n (nth i l1 0))) (seq 0 (2 ^ (n - 1)))
  | _ => false
  end.

Lemma check_verts_all : forall n d, 1 <= n <= 3 -> allowed n d -> check_verts n d = true.
Proof. apply all_allowed. vm_compute. reflexivity. Qed.

Lemma vertex_inds_glued n d : 1 <= n <= 3 -> allowed n d ->
  exists l0 l1, vertex_inds n d = Ok (map Z.of_nat l0, map Z.of_nat l1)
    /\ length l0 = 2 ^ (n - 1) /\ length l1 = 2 ^ (n - 1)
    /\ l0 = filter (fun v => coords 2 n v (dim0 d) =? Nat.b2n (sign0 d)) (seq 0 (2 ^ n))
    /\ NoDup l1 /\ (forall v, In v l1 <-> on_face n (dim1 d) (sign1 d) v)
    /\ forall i, i < 2 ^ (n - 1) -> glued n 1 d (coords 2 n (nth i l0 0)) (coords 2 n (nth i l1 0)).
Proof.
  intros Hn Hd. pose proof (check_verts_all n d Hn Hd) as H. unfold check_verts in H.
  destruct (vertex_inds n d) as [[z0 z1]| | |]; try discriminate.
  cbv zeta in H. repeat (apply andb_true_iff in H; destruct H as [H ?]).
  exists (map Z.to_nat z0), (map Z.to_nat z1).
  apply zlist_eqb_ok in H, H7. apply list_eqb_ok in H6. apply Nat.eqb_eq in H4, H5.
  split; [now rewrite <- H, <- H7|].
  do 3 (split; [assumption|]). split; [now apply nodup_b_ok|]. split.
  - intros v. split; intros Hv.
    + apply face_verts_spec. revert v Hv. now apply incl_b_ok.
    + apply face_verts_spec in Hv. revert v Hv. now apply incl_b_ok.
  - intros i Hi. rewrite forallb_forall in H0. specialize (H0 i ltac:(apply in_seq; lia)). now apply glued_b_ok.
Qed.

(** * Orientation *)

Lemma jac_det d : allowed 3 d -> det3 (jac d) = 1%Z.
Proof.
  intros Hd. assert (H : forallb (fun d => Z.eqb (det3 (jac d)) 1) (allowed_dirs 3) = true) by (vm_compute; reflexivity).
  rewrite forallb_forall in H. apply Z.eqb_eq, H, allowed_in, Hd.
Qed.

Lemma glued_jac n m d x y x' y' : n <= 3 -> allowed n d -> glued n m d x y -> glued n m d x' y' ->
  x (dim0 d) = x' (dim0 d) -> y (dim1 d) = y' (dim1 d) ->
  (forall k, k < n -> x k <= m /\ x' k <= m) ->
  forall k, k < n -> (Z.of_nat (y' k) - Z.of_nat (y k)
    = fold_right Z.add 0 (map (fun c => jac d k c * (Z.of_nat (x' c) - Z.of_nat (x c))) (seq 0 n)))%Z.
Proof.
  intros Hn (Ha & Hb & Hc) [G1 G2] [G1' G2'] Ex Ey Hm k Hk.
  destruct d as [a b s t]; cbn [dim0 dim1 sign0 sign1] in *.
  assert (Hbk := Hm b Hb).
  assert (E : forall l, NoDup l -> forall c0, In c0 l -> (forall c, In c l -> c <> c0 -> jac (mk_dir a b s t) k c = 0%Z \/ x c = x' c) ->
     fold_right Z.add 0%Z (map (fun c => jac (mk_dir a b s t) k c * (Z.of_nat (x' c) - Z.of_nat (x c)))%Z l) = (jac (mk_dir a b s t) k c0 * (Z.of_nat (x' c0) - Z.of_nat (x c0)))%Z).
  { clear. intros l Hl c0. 
    assert (Z0 : forall l, (forall c, In c l -> c <> c0 -> jac (mk_dir a b s t) k c = 0%Z \/ x c = x' c) -> ~ In c0 l ->
      fold_right Z.add 0%Z (map (fun c => jac (mk_dir a b s t) k c * (Z.of_nat (x' c) - Z.of_nat (x c)))%Z l) = 0%Z).
    { induction l0 as [|c l0 IH]; intros Hz Hn; cbn [map fold_right]; [reflexivity|].
      rewrite IH; [|intros; apply Hz; cbn; auto|intros Hi; apply Hn; cbn; auto].
      destruct (Hz c) as [H|H]; [cbn; auto|intros ->; apply Hn; cbn; auto|rewrite H; lia|rewrite H; lia]. }
    induction Hl as [|c l Hni Hl IH]; intros Hi Hz; [easy|].
    cbn [map fold_right]. destruct Hi as [->|Hi].
    - rewrite (Z0 l); [lia| |assumption]. intros c' Hc'. apply Hz. now right.
    - rewrite IH; [|assumption|intros c' Hc'; apply Hz; now right].
      destruct (Hz c) as [H|H]; [cbn; auto|congruence|rewrite H; lia|rewrite H; lia]. }
  assert (Hk0 : k = b \/ (k = a /\ a <> b) \/ (k <> a /\ k <> b)) by lia.
  destruct Hk0 as [->|[[-> Hab]|[Hka Hkb]]].
  - rewrite (E _ (seq_NoDup _ _) a); [|apply in_seq; lia|].
    + rewrite <- Ey, Ex. lia.
    + intros c Hi Hca. left. unfold jac; cbn [dim0 dim1 sign0 sign1].
      rewrite Nat.eqb_refl. apply Nat.eqb_neq in Hca. rewrite Hca. cbn [andb negb].
      rewrite andb_false_r.
      destruct (b =? a) eqn:Eba; cbn [andb]; [|destruct (b =? c); reflexivity].
      apply Nat.eqb_eq in Eba. subst. rewrite Hca. destruct (a =? c); reflexivity.
  - rewrite (E _ (seq_NoDup _ _) b); [|apply in_seq; lia|].
    + unfold jac; cbn [dim0 dim1 sign0 sign1].
      assert (Ea : (a =? b) = false) by now apply Nat.eqb_neq.
      assert (Eb : (b =? a) = false) by (apply Nat.eqb_neq; congruence).
      rewrite Ea, !Nat.eqb_refl. cbn [andb].
      specialize (G2 Hab). specialize (G2' Hab). rewrite G2, G2'.
      destruct s, t; cbn [Bool.eqb sgn]; lia.
    + intros c Hi Hcb. left. unfold jac; cbn [dim0 dim1 sign0 sign1].
      assert (Ea : (a =? b) = false) by now apply Nat.eqb_neq.
      apply Nat.eqb_neq in Hcb. rewrite Ea, Hcb, Nat.eqb_refl. cbn [andb negb]. rewrite andb_false_r. reflexivity.
  - rewrite (E _ (seq_NoDup _ _) k); [|apply in_seq; lia|].
    + rewrite (G1 k), (G1' k) by assumption. unfold jac; cbn [dim0 dim1 sign0 sign1].
      apply Nat.eqb_neq in Hka, Hkb. rewrite Hka, Hkb, Nat.eqb_refl. cbn [andb negb]. lia.
    + intros c Hi Hck. left. unfold jac; cbn [dim0 dim1 sign0 sign1].
      apply Nat.eqb_neq in Hka, Hkb. rewrite Hka, Hkb. cbn [andb].
      assert (Ek : (k =? c) = false) by (apply Nat.eqb_neq; congruence). now rewrite Ek.
Qed.

Lemma flip_normal_sgn d side :
  (if flip_normal d side then -1 else 1)%Z = (if side then - sgn (sign1 d) else sgn (sign0 d))%Z.
Proof. destruct d as [a b [] []], side; reflexivity. Qed.
