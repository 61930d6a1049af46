(** Theorems about the connections between the elements of the tree. *)
From Coq Require Import ZArith QArith List Bool Arith Lia Permutation.
From Verif Require Import Outcome Loop Tree_Model Tree_Spec Tree_Proofs Tree_Neighbors Tree_Flood Update_Model Update_Spec Update_Proofs1 Update_Proofs9 Update_Thm Trim_Model Trim_Spec Trim_Proofs7 Trim_Thm
  Join_Model Join_Spec Join_Proofs1 Join_Proofs5 Join_Proofs7.
Import ListNotations.
Local Open Scope nat_scope.

Definition some_orders (order : nat -> state -> list nat) : Prop := forall k st, some_order st (order k st).

(** ** C81 *)

(** What is reached from a new mesh by updates without a surface. *)
Inductive plain_history (n : nat) : joined -> Prop :=
| plain_new : plain_history n (start_joined n)
| plain_next js surf away order ref unref fuel js' : plain_history n js -> (forall q, surf q = false) -> some_orders order ->
    update_joined fuel n surf away order ref unref js = Ok js' -> plain_history n js'.

Lemma plain_reached n js : 2 <= n -> plain_history n js -> plain n js.
Proof.
  intros Hn H. induction H as [|js surf away order ref unref fuel js' _ IH Sf Ho E]; [apply plain_start|]. eapply (proj2 (plain_update n surf away order ref unref js Hn Ho Sf IH)); eauto.
Qed.

(** After any sequence of updates every face of every element has exactly one connection; every connection is between the
    elements, or an element and the boundary, that do share the face, and the fine elements of a refined one are all
    elements at the face in row-major order. Every leaf has an element, every element is the one of a leaf, and the next
    update ends. *)
Theorem plain_connected : forall n js, 2 <= n -> plain_history n js ->
  well_joined n js /\ no_gap n js /\ covered (j_st js) /\ balanced n (j_st js) /\
  (forall i, i < length (s_elems (j_st js)) -> exists p x, on_leaf (j_st js) i p x) /\
  forall surf away order ref unref, (forall q, surf q = false) -> some_orders order ->
    exists fuel0, forall fuel, fuel0 <= fuel -> exists js', update_joined fuel n surf away order ref unref js = Ok js'.
Proof.
  intros n js Hn H. apply (plain_reached n js Hn) in H. pose proof (plain_gap n js H) as G. pose proof H as ([S0 Lk Bl Rc Wj Al Ls Nd] & Cv & _ & _ & Pa).
  split; [exact Wj|]. split; [exact G|]. split; [exact Cv|]. split; [exact Bl|]. split.
  - intros i Hi. destruct (nth_error (s_elems (j_st js)) i) as [e|] eqn:E; [|apply nth_error_None in E; lia]. destruct (e_path e) as [p|] eqn:Ep; [|exfalso; eapply Pa; eauto].
    destruct (Lk i e p E Ep) as (x & Hx & Ht). destruct (proj2 S0 p x _ Hx Ht) as (Lx & _). exists p, x. split; [split; auto|]. exists x, e. split; [exact Hx|]. split; [exact Ht|]. split; [exact E|].
    rewrite (Rc _ _ E). discriminate.
  - intros surf away order ref unref Sf Ho. apply (plain_update n surf away order ref unref js Hn Ho Sf H).
Qed.
Print Assumptions plain_connected.

(** ** C82 *)

Lemma set_surface_ends n surf start st x : reachable n (s_tree st) -> subtree (s_tree st) start = Some x ->
  exists fuel0 st1, forall fuel, fuel0 <= fuel -> set_surface fuel n surf start st = Ok st1.
Proof.
  intros R Hx. unfold set_surface. generalize (container st false ++ container st true). intros l.
  assert (M : forall l st x, reachable n (s_tree st) -> subtree (s_tree st) start = Some x ->
    exists s1 x1, ofold (mark_surface n surf) l st = Ok s1 /\ reachable n (s_tree s1) /\ subtree (s_tree s1) start = Some x1).
  { clear. induction l as [|i l IH]; intros st x R Hx; cbn [ofold]; [eauto|].
    assert (K : exists s0 x0, mark_surface n surf i st = Ok s0 /\ reachable n (s_tree s0) /\ subtree (s_tree s0) start = Some x0).
    { unfold mark_surface. destruct (tree_of st i) as [p|] eqn:Et; [|eauto]. destruct (surf p); [|eauto].
      assert (exists y, subtree (s_tree st) p = Some y) as (y & Hy).
      { unfold tree_of in Et. destruct (nth_error (s_elems st) i) as [e|]; [|discriminate]. destruct (e_path e) as [q|]; [|discriminate]. unfold elem_at in Et.
        destruct (subtree (s_tree st) q) as [y|] eqn:Ey; [|discriminate]. destruct (t_elem y); [|discriminate]. destruct (Nat.eqb _ _) in Et; [|discriminate]. injection Et as <-. eauto. }
      assert (E : exists t', tree_step n (s_tree st) (Set_status p 0%Z) = Ok t' /\ forget_status t' = forget_status (s_tree st)).
      { cbn [tree_step]. rewrite Hy. cbn. eexists. split; [reflexivity|]. apply forget_update. }
      destruct E as (t' & E & F). unfold on_tree. rewrite E. cbn [bind]. eexists. destruct (subtree_same _ t' start x (eq_sym F) Hx) as (x0 & H0 & _). exists x0. split; [reflexivity|]. cbn [s_tree].
      split; [exact (reachable_step n _ _ _ R E)|exact H0]. }
    destruct K as (s0 & x0 & E & R0 & H0). rewrite E. cbn [bind]. exact (IH s0 x0 R0 H0). }
  destruct (M l st x R Hx) as (s1 & x1 & E1 & R1 & H1). destruct (flood_fill_nonleaf n (s_tree s1) start x1 1%Z R1 H1 ltac:(discriminate)) as (f0 & t' & F & _).
  exists f0. eexists. intros fuel Hf. rewrite E1. cbn [bind]. unfold on_tree. cbn [tree_step]. rewrite (F fuel Hf). cbn [bind]. reflexivity.
Qed.

(** [set_surface], given any surface and any starting point: the connections are right, no face has two, a face with
    elements or the boundary behind it has one, and a face with no elements behind it has none. *)
Theorem surface_connected : forall n js surf start away order fuel js', 2 <= n -> plain_history n js -> some_orders order ->
  surface_joined fuel n surf start away order js = Ok js' ->
  well_joined n js' /\ balanced n (j_st js') /\ extrudable n (j_st js') /\ linked (j_st js') /\
  forall i p x d s, on_leaf (j_st js') i p x -> d < n -> (connected js' (i, d, s) <-> covered_face n (j_st js') x d (sgn s)).
Proof.
  intros n js surf start away order fuel js' Hn H Ho E. apply (plain_reached n js Hn) in H as (Sd & _ & _ & Xe & _).
  destruct (surface_keeps n surf start away order js fuel js' Hn Ho Sd Xe E) as ((st1 & E1 & Rj) & Sd' & Xe' & _). destruct Rj as (W & A & L & S' & Lk' & B' & Ex & R' & _).
  split; [exact W|]. split; [exact B'|]. split; [exact Ex|]. split; [exact Lk'|]. intros i p x d s O Hd. split; [|intros C; eapply A; eauto].
  intros C. destruct (joined_face n js' i p x d s S' W Ex R' O Hd C) as [K|(o & Ho')]; [exact K|exfalso]. apply L in Ho'. rewrite Xe' in Ho'. destruct Ho'.
Qed.
Print Assumptions surface_connected.

(** It ends if the starting point is in the tree. *)
Theorem surface_finishes : forall n js surf start x away order, 2 <= n -> plain_history n js -> some_orders order -> subtree (s_tree (j_st js)) start = Some x ->
  exists fuel0, forall fuel, fuel0 <= fuel -> exists js', surface_joined fuel n surf start away order js = Ok js'.
Proof.
  intros n js surf start x away order Hn H Ho Hx. apply (plain_reached n js Hn) in H as (Sd & _ & _ & Xe & _).
  destruct (set_surface_ends n surf start (j_st js) x (proj1 (so_settled n js Sd)) Hx) as (f0 & st1 & E). eapply surface_ends; eauto.
Qed.
Print Assumptions surface_finishes.

(** ** C83 *)

(** The full statement: an update, whatever the surface and the requests, leaves right connections, and connects all faces
    that have elements behind them. *)
Definition updates_connect : Prop := forall n surf away order ref unref js fuel js', 2 <= n -> some_orders order -> sound n js ->
  update_joined fuel n surf away order ref unref js = Ok js' -> well_joined n js' /\ all_joined n js'.

(** The wall of [wall_loses] again: a new mesh, refined three times near the wall, which is then made its surface. *)
Definition in_order (k : nat) (st : state) : list nat := seq 0 (length (s_elems st)).
Definition refine_at (surf : path -> bool) (fine : list path) (js : joined) : outcome joined :=
  update_joined 30 2 surf no_away in_order (at_paths (j_st js) fine) never js.
Fixpoint refine_all (fine : list (list path)) (js : joined) : outcome joined :=
  match fine with
  | [] => Ok js
  | ps :: fine' => let! js := refine_at flat ps js in refine_all fine' js
  end.
Definition with_surface (surf : path -> bool) (start : path) (fine : list (list path)) : outcome joined :=
  let! js := refine_all fine (start_joined 2) in surface_joined 100 2 surf start no_away in_order js.
Definition wall_levels : list (list path) := [[[]]; [[2]]; [[2; 2]; [2; 3]]].

Lemma in_order_some : some_orders in_order.
Proof. intros k st. apply Permutation_refl. Qed.
Lemma refine_history fine : forall js js', plain_history 2 js -> refine_all fine js = Ok js' -> plain_history 2 js'.
Proof.
  induction fine as [|ps fine IH]; intros js js' H E; cbn [refine_all] in E; [injection E as <-; exact H|]. apply bind_ok in E as (j1 & E1 & E). apply (IH j1); [|exact E].
  unfold refine_at in E1. eapply plain_next; [exact H| |apply in_order_some|exact E1]. reflexivity.
Qed.
Lemma with_surface_sound surf start fine js : with_surface surf start fine = Ok js -> sound 2 js /\ one_layer js.
Proof.
  intros E. unfold with_surface in E. apply bind_ok in E as (j1 & E1 & E). apply refine_history in E1; [|constructor]. apply (plain_reached 2 j1 (le_n _)) in E1 as (Sd & _ & _ & Xe & _).
  destruct (surface_keeps 2 surf start no_away in_order j1 100 js (le_n _) in_order_some Sd Xe E) as (_ & Sd' & Xe' & _). split; [exact Sd'|].
  intros i o d s H. apply (so_listed 2 js Sd') in H. rewrite Xe' in H. destruct H.
Qed.

(** how many connections of each kind there are *)
Definition count (js : joined) : nat * nat * nat * nat :=
  let of_kind k := length (filter k (j_links js)) in
  (of_kind (fun l => match l with Conf false _ _ _ _ => true | _ => false end), of_kind (fun l => match l with Conf true _ _ _ _ => true | _ => false end),
   of_kind (fun l => match l with Refd _ _ _ _ _ => true | _ => false end), of_kind (fun l => match l with Bnd _ _ _ => true | _ => false end)).

Fixpoint has_elem (z : Z) (t : tree) : bool :=
  match t with Node _ _ _ e cs => match e with Some y => (y =? z)%Z | None => false end || existsb (has_elem z) cs end.
Lemma has_elem_spec z : forall t p x, subtree t p = Some x -> t_elem x = Some z -> has_elem z t = true.
Proof.
  induction t as [l c s e cs IH] using tree_ind'. intros [|k p] x Hx Ht; cbn [has_elem]; apply orb_true_iff.
  - left. cbn in Hx. injection Hx as <-. cbn in Ht. rewrite Ht. apply Z.eqb_refl.
  - right. cbn in Hx. destruct (nth_error cs k) as [t|] eqn:E; [|discriminate]. apply existsb_exists. exists t. apply nth_error_In in E. split; [exact E|].
    rewrite Forall_forall in IH. eapply IH; eauto.
Qed.

(** Sixteen elements, twenty-five connections of elements with each other, five of which are refined, and fifteen with
    the boundary: every one of the sixty-four faces is connected. Then the wall is made the surface: of the fourteen
    elements that are left the faces at the wall have no connection. *)
Example wall_connections :
  match refine_all wall_levels (start_joined 2) with
  | Ok js => length (s_elems (j_st js)) = 16 /\ count js = (17, 0, 5, 15) /\ In (Refd false 3 [8; 9] 0 true) (j_links js) /\
             length (flat_map uses (j_links js)) = 64 /\
             where_are (j_st js) = [[0]; [1]; [2; 0]; [2; 1]; [2; 2; 0]; [2; 2; 1]; [2; 2; 2]; [2; 2; 3]; [2; 3; 0]; [2; 3; 1]; [2; 3; 2]; [2; 3; 3]; [3; 0]; [3; 1]; [3; 2]; [3; 3]]
  | _ => False
  end /\
  match with_surface wall [0] wall_levels with
  | Ok js => length (s_elems (j_st js)) = 14 /\ count js = (8, 7, 2, 14) /\
             filter (fun f => negb (j_face js f)) (flat_map (fun i => map (fun ds => (i, fst ds, snd ds)) (faces_of 2)) (seq 0 14)) =
               [(4, 0, true); (6, 0, false); (7, 0, false); (8, 0, false); (9, 0, false); (11, 1, false)]
  | _ => False
  end.
Proof. vm_compute. repeat split; auto 20. Qed.

(** Then the mesh is updated without any request: elements lose their nodes and keep their connections, here the first one
    to the boundary, and new elements of the same place are connected too. *)
Example wall_wrong :
  match with_surface wall [0] wall_levels with
  | Ok js => match refine_at wall [] js with
             | Ok js' => In (Bnd 0 0 true) (j_links js') /\ has_elem 0 (s_tree (j_st js')) = false
             | _ => False
             end
  | _ => False
  end.
Proof. vm_compute. split; [now left|reflexivity]. Qed.

Theorem update_connected_refuted : ~ updates_connect.
Proof.
  intros H. pose proof wall_wrong as W. destruct (with_surface wall [0] wall_levels) as [js| | |] eqn:E; try contradiction.
  destruct (refine_at wall [] js) as [js'| | |] eqn:E'; try contradiction. destruct W as [W1 W2].
  destruct (H 2 wall no_away in_order (at_paths (j_st js) []) never js 30 js' (le_n _) in_order_some (proj1 (with_surface_sound _ _ _ _ E)) E') as [Wj _].
  destruct (wj_right 2 js' Wj _ W1) as (_ & p & x & [_ (y & e & Hy & Ht & _)] & _). rewrite (has_elem_spec 0 _ p y Hy Ht) in W2. discriminate.
Qed.
Print Assumptions update_connected_refuted.

(** What is true: if the update loses no element (C75), then the connections are right, every face is connected to the
    elements behind it, every face that is connected has elements, the boundary or an extruded element behind it, and
    the update ends. *)
Theorem update_connected_partial : forall n surf away order ref unref js fuel st1, 2 <= n -> some_orders order -> sound n js ->
  update_mesh fuel n surf ref unref (extr_pairs js) (j_st js) = Ok st1 -> no_orphans st1 ->
  (exists fuel0, forall fuel, fuel0 <= fuel -> exists js', update_joined fuel n surf away order ref unref js = Ok js') /\
  forall js', update_joined fuel n surf away order ref unref js = Ok js' ->
    well_joined n js' /\ all_joined n js' /\ balanced n (j_st js') /\ extrudable n (j_st js') /\ linked (j_st js') /\
    (forall i p x d s, on_leaf (j_st js') i p x -> d < n -> connected js' (i, d, s) ->
       covered_face n (j_st js') x d (sgn s) \/ exists o, In (Ext i o d s) (j_links js')) /\
    (one_layer js -> sound n js' /\ one_layer js').
Proof.
  intros n surf away order ref unref js fuel st1 Hn Ho Sd E1 No. split; [eapply update_ends; eauto|]. intros js' E.
  destruct (update_keeps n surf away order ref unref js fuel js' st1 Hn Ho Sd E1 No E) as ((W & A & L & S' & Lk' & B' & Ex & R' & _) & Kl & _).
  split; [exact W|]. split; [exact A|]. split; [exact B'|]. split; [exact Ex|]. split; [exact Lk'|]. split.
  - intros i p x d s O Hd C. eapply joined_face; eauto.
  - intros Ol. destruct (Kl Ol) as [Nd Ol']. split; [|exact Ol']. split; auto.
Qed.
Print Assumptions update_connected_partial.


(** The right half of the square is the surface and the element at the lower left is refined: nothing is lost, and the
    exposed faces of the five elements are the only ones without connections. *)
Definition half (p : path) : bool := match p with 2 :: _ | 3 :: _ => true | _ => false end.
Example half_connections :
  match with_surface half [0] [[[]]] with
  | Ok js => where_are (j_st js) = [[0]; [1]] /\
      match refine_at half [[0]] js with
      | Ok js' => lost (j_st js') = [] /\ length (s_elems (j_st js')) = 5 /\ count js' = (2, 2, 1, 6) /\
                  filter (fun f => negb (j_face js' f)) (flat_map (fun i => map (fun ds => (i, fst ds, snd ds)) (faces_of 2)) (seq 0 5)) =
                    [(0, 0, true); (2, 0, true); (3, 0, true)]
      | _ => False
      end
  | _ => False
  end.
Proof. vm_compute. repeat split. Qed.

(** In one dimension the source takes whichever element is connected last for the coarse one: here the "coarse" element
    number 1 is the one of the node [1; 0], and the "fine" element number 0 is the one of the node [0]. *)
Example line_swapped :
  match (let! js := update_joined 30 1 flat no_away in_order (fun _ => true) never (start_joined 1) in
         update_joined 30 1 flat no_away in_order (at_paths (j_st js) [[1]]) never js) with
  | Ok js => where_are (j_st js) = [[0]; [1; 0]; [1; 1]] /\ In (Refd false 1 [0] 0 false) (j_links js)
  | _ => False
  end.
Proof. vm_compute. repeat split. auto. Qed.
