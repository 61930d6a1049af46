(** Theorems about mesh adaptation. *)
From Coq Require Import ZArith List Bool Arith Lia Permutation.
From Verif Require Import Outcome Loop Tree_Model Tree_Spec Tree_Proofs Update_Model Update_Spec
  Update_Proofs1 Update_Proofs3 Update_Proofs4 Update_Proofs5 Update_Proofs6 Update_Proofs8 Update_Proofs9 Update_Proofs10 Update_Proofs11
  Update_Proofs12.
Import ListNotations.
Local Open Scope nat_scope.

(** ** C39 *)

(** Updating any mesh, with any surface and any requests, never fails an assertion and never follows a null pointer; if
    its loops end, elements that share a face differ by at most one refinement level, and no element has an element more
    than one level finer at one of its edges. *)
Theorem update_balanced : forall n surf ref unref cons st fuel, settled n st ->
  update_mesh fuel n surf ref unref cons st = NoFuel \/
  exists st', update_mesh fuel n surf ref unref cons st = Ok st' /\ consistent n st' /\ balanced n st'.
Proof. intros. now apply update_safe. Qed.
Print Assumptions update_balanced.

(** The loop that smooths the refinement levels ends whatever mesh it starts from; it only ever refines: no node
    disappears, and no element loses its node. *)
Theorem smoothing_ends : forall n surf st, consistent n st -> (forall i p, lives st i p -> record_of st i <> 1%Z) ->
  exists fuel0, forall fuel, fuel0 <= fuel -> exists st', smooth_loop fuel n surf st = Ok st' /\ consistent n st' /\ balanced n st' /\
    (forall q, node_at (s_tree st) q -> node_at (s_tree st') q) /\ (no_orphans st -> no_orphans st').
Proof.
  intros n surf st C N. apply consistent_Cons in C. destruct (smooth_total n surf st C) as (k0 & H).
  { intros p i Hi. destruct (Z.eq_dec (record_of st i) 2) as [E|E]; [rewrite E; discriminate|]. apply (N i p). now apply (lives_at n st i p C). }
  exists k0. intros k Hk. destruct (H k Hk) as (st' & E & F & _ & B). exists st'. split; [exact E|]. pose proof (f_cons _ _ _ _ F) as C'.
  split; [now apply consistent_Cons|]. split; [exact B|]. split.
  - intros q Hq. apply inf_node. apply (f_node _ _ _ _ F q). now apply inf_node.
  - intros O. apply (Whole_no_orphans n st' C'), (f_whole _ _ _ _ F), (Whole_no_orphans n st C), O.
Qed.
Print Assumptions smoothing_ends.

(** What the theorems ask of a mesh holds for a new mesh and for the meshes left by [update] and [set_surface]. *)
Theorem update_start : forall n, settled n (start_mesh n) /\ covered (start_mesh n) /\ linked (start_mesh n) /\ no_surface (start_mesh n).
Proof. exact start_complete. Qed.
Print Assumptions update_start.
Theorem update_again : forall n surf ref unref cons st fuel st', settled n st ->
  update_mesh fuel n surf ref unref cons st = Ok st' -> settled n (purge st').
Proof.
  intros n surf ref unref cons st fuel st' S0 E. destruct (update_safe n surf ref unref cons st fuel S0) as [K|(s & K & C & _)]; [congruence|].
  rewrite E in K. injection K as <-. now apply purge_settled.
Qed.
Print Assumptions update_again.
Theorem surface_then_update : forall n surf start fuel st st', settled n st -> set_surface fuel n surf start st = Ok st' -> settled n (purge st').
Proof. intros. eapply set_surface_settled; eauto. Qed.
Print Assumptions surface_then_update.

(** ** C77 *)

(** A mesh whose elements fill the tree (no surface): the update ends, no element is lost, the result fills the tree and is
    balanced, every requested refinement is carried out, and a node disappears only if all its siblings had elements for
    which coarsening and not refinement was requested, one of which at least was not locked. *)
Theorem update_requests : forall n surf ref unref cons st,
  settled n st -> covered st -> linked st -> no_surface st -> (forall q, surf q = false) ->
  exists fuel0, forall fuel, fuel0 <= fuel -> exists st', update_mesh fuel n surf ref unref cons st = Ok st' /\
    consistent n st' /\ filled st' /\ no_orphans st' /\ no_surface st' /\ balanced n st' /\
    (forall i p x, subtree (s_tree st) p = Some x -> t_elem x = Some (Z.of_nat i) -> wants_finer ref unref cons st i ->
       exists x', subtree (s_tree st') p = Some x' /\ t_children x' <> []) /\
    (forall q, node_at (s_tree st) q -> ~ node_at (s_tree st') q ->
       exists parent k, q = parent ++ [k] /\
         (forall k', k' < 2 ^ n -> exists x j, leaf_at (s_tree st) (parent ++ [k']) x /\ t_elem x = Some (Z.of_nat j) /\ wants_coarser ref unref cons st j) /\
         (exists k' x j, k' < 2 ^ n /\ leaf_at (s_tree st) (parent ++ [k']) x /\ t_elem x = Some (Z.of_nat j) /\ unlocked cons st j)).
Proof. exact update_complete. Qed.
Print Assumptions update_requests.

(** Afterwards the mesh is again one that fills the tree. *)
Theorem update_requests_again : forall n surf ref unref cons st fuel st',
  settled n st -> covered st -> linked st -> no_surface st -> (forall q, surf q = false) ->
  update_mesh fuel n surf ref unref cons st = Ok st' ->
  settled n (purge st') /\ covered (purge st') /\ linked (purge st') /\ no_surface (purge st').
Proof. exact update_cycle. Qed.
Print Assumptions update_requests_again.

(** Without requests (or with contradicting ones) nothing happens to a balanced mesh that fills its tree. *)
Theorem update_idle : forall n surf ref unref cons st, settled n st -> covered st -> balanced n st ->
  (forall i e, nth_error (s_elems st) i = Some e -> e_record e <> 2%Z) ->
  (forall i, i < length (s_elems st) -> ~ only_finer ref unref i /\ ~ only_coarser ref unref i) ->
  forall fuel, 0 < fuel -> exists st', update_mesh fuel n surf ref unref cons st = Ok st' /\ s_tree st' = s_tree st /\
    length (s_elems st') = length (s_elems st) /\
    (forall i e', nth_error (s_elems st') i = Some e' -> e_record e' = 0%Z /\
       exists e, nth_error (s_elems st) i = Some e /\ e_path e' = e_path e /\ e_def e' = e_def e).
Proof.
  intros n surf ref unref cons st S0 Cv B R H fuel L. exists (asked ref unref cons st). split; [now apply idle_update|]. split; [apply asked_tree|].
  split; [apply asked_length|]. intros i e' E. split; [eapply idle_records; eauto|].
  destruct (asked_back ref unref cons st i e' E) as (e & K & K1 & K2 & _). eauto.
Qed.
Print Assumptions update_idle.

(** *** Examples *)
Definition flat (p : path) : bool := false.
Definition never (i : nat) : bool := false.
Definition at_paths (st : state) (ps : list path) (i : nat) : bool :=
  match tree_of st i with
  | Some p => existsb (fun q => if list_eq_dec Nat.eq_dec p q then true else false) ps
  | None => false
  end.
Definition adapt (n : nat) (surf : path -> bool) (fine coarse : list path) (st : state) : outcome state :=
  let! st := update_mesh 20 n surf (at_paths st fine) (at_paths st coarse) [] st in Ok (purge st).
(** the paths of the live elements *)
Definition where_are (st : state) : list path :=
  flat_map (fun i => match tree_of st i with Some p => if (record_of st i =? 2)%Z then [] else [p] | None => [] end) (seq 0 (length (s_elems st))).

(** A chain: refining one corner four times in a square drags its neighbours along. *)
Example update_chain :
  match (let! s := adapt 2 flat [[]] [] (start_mesh 2) in let! s := adapt 2 flat [[0]] [] s in
         let! s := adapt 2 flat [[0; 3]] [] s in adapt 2 flat [[0; 3; 3]] [] s) with
  | Ok s => forallb (fun p => 2 <=? length p) (where_are s) = true /\ length (where_are s) = 31 /\
            existsb (fun p => if list_eq_dec Nat.eq_dec p [0; 3; 3; 3] then true else false) (where_are s) = true
  | _ => False
  end.
Proof. vm_compute. repeat split. Qed.

(** Coarsening: one of four siblings did not ask; then all do. *)
Example update_coarsen :
  match adapt 2 flat [[]] [] (start_mesh 2) with
  | Ok s => (match adapt 2 flat [] [[0]; [1]; [2]] s with Ok s => where_are s | _ => [] end) = [[0]; [1]; [2]; [3]] /\
            (match adapt 2 flat [] [[0]; [1]; [2]; [3]] s with Ok s => where_are s | _ => [[7]] end) = [[]]
  | _ => False
  end.
Proof. vm_compute. repeat split. Qed.

(** Both requests at the same elements: nothing. *)
Example update_both :
  match (let! s := adapt 2 flat [[]] [] (start_mesh 2) in adapt 2 flat [[0]] [] s) with
  | Ok s => match adapt 2 flat [[0; 3]; [1]] [[0; 3]; [1]] s with Ok s' => where_are s' = where_are s /\ length (where_are s) = 7 | _ => False end
  | _ => False
  end.
Proof. vm_compute. repeat split. Qed.

(** ** C74 *)

(** The full statement, the documentation of [Element::unrefinement_locked] (include/Element.hpp:53): the node of a locked
    element is not taken away. *)
Definition locks_hold : Prop := forall n surf ref unref cons st fuel st', settled n st -> covered st -> linked st -> no_surface st ->
  (forall q, surf q = false) -> update_mesh fuel n surf ref unref cons st = Ok st' ->
  forall i e p x, nth_error (s_elems st) i = Some e -> e_locked e = true -> subtree (s_tree st) p = Some x -> t_elem x = Some (Z.of_nat i) ->
    node_at (s_tree st') p.

(** Two elements in one dimension, the second one locked. *)
Definition locked_mesh : state :=
  mk_state (match tree_run 1 (new_tree 1) [Refine []; Set_elem [0] (Some 0%Z); Set_elem [1] (Some 1%Z)] with Ok t => t | _ => new_tree 1 end)
           [mk_elem (Some [0]) false 0%Z false; mk_elem (Some [1]) false 0%Z true].
Lemma locked_mesh_fine : settled 1 locked_mesh /\ covered locked_mesh /\ linked locked_mesh /\ no_surface locked_mesh.
Proof.
  split; [split|split; [|split]].
  - exists [Refine []; Set_elem [0] (Some 0%Z); Set_elem [1] (Some 1%Z)]. reflexivity.
  - intros p x z Hx Hz. destruct p as [|[|[|k]] [|k' p]]; cbn in Hx; try discriminate.
    + injection Hx as <-. discriminate.
    + injection Hx as <-. cbn in *. injection Hz as <-. split; [reflexivity|]. exists 0. eexists. repeat split.
    + destruct k'; discriminate.
    + injection Hx as <-. cbn in *. injection Hz as <-. split; [reflexivity|]. exists 1. eexists. repeat split.
    + destruct k'; discriminate.
    + destruct k; discriminate.
    + destruct k; discriminate.
  - intros p x [Hx Lx]. destruct p as [|[|[|k]] [|k' p]]; cbn in Hx; try discriminate.
    + injection Hx as <-. cbn in Lx. discriminate.
    + injection Hx as <-. cbn. discriminate.
    + destruct k'; discriminate.
    + injection Hx as <-. cbn. discriminate.
    + destruct k'; discriminate.
    + destruct k; discriminate.
    + destruct k; discriminate.
  - intros i e p Hi Hp. destruct i as [|[|i]]; cbn in Hi; try (destruct i; discriminate); injection Hi as <-; cbn in Hp; injection Hp as <-; eexists; split; reflexivity.
  - intros p x Hx. destruct p as [|[|[|k]] [|k' p]]; cbn in Hx; try discriminate.
    + injection Hx as <-. cbn. discriminate.
    + injection Hx as <-. cbn. discriminate.
    + destruct k'; discriminate.
    + injection Hx as <-. cbn. discriminate.
    + destruct k'; discriminate.
    + destruct k; discriminate.
    + destruct k; discriminate.
Qed.

Theorem update_lock_refuted : ~ locks_hold.
Proof.
  intros H. destruct locked_mesh_fine as (H1 & H2 & H3 & H4).
  destruct (update_mesh 5 1 flat never (fun _ => true) [] locked_mesh) as [st'| | |] eqn:E; [|vm_compute in E; discriminate..].
  assert (K : node_at (s_tree st') [1]).
  { eapply (H 1 flat never (fun _ => true) [] locked_mesh 5 st' H1 H2 H3 H4 (fun _ => eq_refl) E 1 (mk_elem (Some [1]) false 0%Z true) [1]); reflexivity. }
  vm_compute in E. injection E as <-. destruct K as [x Hx]. vm_compute in Hx. discriminate.
Qed.
Print Assumptions update_lock_refuted.

(** What is true: if all the siblings are locked (themselves or by an element extruded from them), nothing is taken away. *)
Theorem update_lock_partial : forall n surf ref unref cons st fuel st',
  settled n st -> covered st -> linked st -> no_surface st -> (forall q, surf q = false) ->
  update_mesh fuel n surf ref unref cons st = Ok st' ->
  forall parent, (forall k x i, leaf_at (s_tree st) (parent ++ [k]) x -> t_elem x = Some (Z.of_nat i) -> ~ unlocked cons st i) ->
  forall k, node_at (s_tree st) (parent ++ [k]) -> node_at (s_tree st') (parent ++ [k]).
Proof.
  intros n surf ref unref cons st fuel st' S0 Cv Lk Ns Sf E parent Hl k Hk.
  destruct (update_complete n surf ref unref cons st S0 Cv Lk Ns Sf) as (f0 & H). destruct (H (f0 + fuel) ltac:(lia)) as (st2 & E2 & _ & _ & _ & _ & _ & _ & V).
  assert (st2 = st') as ->. { pose proof (update_fuel n surf ref unref cons st fuel st' E (f0 + fuel) ltac:(lia)). congruence. }
  destruct (subtree (s_tree st') (parent ++ [k])) as [x|] eqn:Ex; [exists x; exact Ex|exfalso].
  destruct (V (parent ++ [k]) Hk) as (par & k0 & Ep & _ & (k' & x & j & _ & A & B & U)).
  { intros [x Hx]. congruence. }
  apply app_inj_tail in Ep as [<- _]. apply (Hl k' x j A B U).
Qed.
Print Assumptions update_lock_partial.

(** ** C75 *)

(** The full statement: an update loses no element, that is, every element made for a node of the tree and not marked for
    deletion is still the element of that node. *)
Definition no_element_lost : Prop := forall n surf ref unref cons st fuel st', settled n st -> linked st ->
  update_mesh fuel n surf ref unref cons st = Ok st' -> no_orphans st'.

(** A wall in the unit square: the segment [x = 0.62], [0 <= y <= 0.3]; a node intersects it if the centre is within half a
    diagonal (src/Accessible_mesh.cpp:685-690). *)
Fixpoint path_coord (p : path) (x y : Z) : Z * Z :=
  match p with [] => (x, y) | k :: p' => path_coord p' (2 * x + Z.of_nat (k / 2)) (2 * y + Z.of_nat (k mod 2)) end.
Definition wall (p : path) : bool :=
  let (x, y) := path_coord p 0 0 in
  let s := (2 ^ Z.of_nat (S (length p)))%Z in
  let dx := ((2 * x + 1) * 100 - 62 * s)%Z in
  let dy := Z.max 0 ((2 * y + 1) * 100 - 30 * s)%Z in
  (dx * dx + dy * dy <=? 20000)%Z.

(** A new mesh, refined three times near the wall; then the wall is made its surface. *)
Definition wall_mesh : outcome state :=
  let! s := adapt 2 flat [[]] [] (start_mesh 2) in
  let! s := adapt 2 flat [[2]] [] s in
  let! s := adapt 2 flat [[2; 2]; [2; 3]] [] s in
  let! s := set_surface 100 2 wall [0] s in Ok (purge s).

Lemma adapt_complete n fine coarse st st' : settled n st /\ covered st /\ linked st /\ no_surface st -> adapt n flat fine coarse st = Ok st' ->
  settled n st' /\ covered st' /\ linked st' /\ no_surface st'.
Proof.
  intros (H1 & H2 & H3 & H4) E. unfold adapt in E.
  destruct (update_mesh 20 n flat (at_paths st fine) (at_paths st coarse) [] st) as [s| | |] eqn:Eu; cbn [bind] in E; try discriminate.
  injection E as <-. apply (update_cycle n flat _ _ [] st 20 s H1 H2 H3 H4 (fun _ => eq_refl) Eu).
Qed.

Lemma bind_inv {A B} (o : outcome A) (f : A -> outcome B) b : bind o f = Ok b -> exists a, o = Ok a /\ f a = Ok b.
Proof. destruct o; cbn; intros H; try discriminate. eauto. Qed.
Lemma wall_mesh_settled st : wall_mesh = Ok st -> settled 2 st.
Proof.
  unfold wall_mesh. intros E. apply bind_inv in E as (s1 & E1 & E). apply bind_inv in E as (s2 & E2 & E).
  apply bind_inv in E as (s3 & E3 & E). apply bind_inv in E as (s4 & E4 & E). injection E as <-.
  pose proof (adapt_complete 2 _ _ _ _ (start_complete 2) E1) as H1. pose proof (adapt_complete 2 _ _ _ _ H1 E2) as H2.
  pose proof (adapt_complete 2 _ _ _ _ H2 E3) as (H3 & _). apply (set_surface_settled 2 wall [0] 100 s3 s4 H3 E4).
Qed.

(** elements that have lost their node *)
Definition lost (st : state) : list path :=
  flat_map (fun i => match nth_error (s_elems st) i with
                     | Some e => match e_path e, tree_of st i with
                                 | Some p, None => if (e_record e =? 2)%Z then [] else [p]
                                 | _, _ => []
                                 end
                     | None => []
                     end) (seq 0 (length (s_elems st))).
Lemma lost_orphans st p : In p (lost st) -> ~ no_orphans st.
Proof.
  unfold lost. rewrite in_flat_map. intros (i & _ & H) N. destruct (nth_error (s_elems st) i) as [e|] eqn:E; [|destruct H].
  destruct (e_path e) as [q|] eqn:Ep; [|destruct H]. destruct (tree_of st i) as [q'|] eqn:Et; [destruct H|].
  destruct (Z.eqb_spec (e_record e) 2) as [R|R]; [destruct H|]. destruct (N i e q E Ep R) as (x & X1 & X2).
  unfold tree_of in Et. rewrite E, Ep in Et. unfold elem_at in Et. rewrite X1, X2, Nat2Z.id, Nat.eqb_refl in Et. discriminate.
Qed.
Lemma linked_check st : forallb (fun i => match nth_error (s_elems st) i with
    | Some e => match e_path e with Some p => match subtree (s_tree st) p with
                                              | Some x => match t_elem x with Some z => (z =? Z.of_nat i)%Z | None => false end
                                              | None => false end
                                  | None => true end
    | None => true end) (seq 0 (length (s_elems st))) = true -> linked st.
Proof.
  intros H i e p Hi Hp. rewrite forallb_forall in H. specialize (H i). rewrite Hi, Hp in H.
  assert (L : i < length (s_elems st)) by (apply nth_error_Some; congruence).
  specialize (H ltac:(apply in_seq; lia)). destruct (subtree (s_tree st) p) as [x|]; [|discriminate].
  destruct (t_elem x) as [z|] eqn:Ez; [|discriminate]. apply Z.eqb_eq in H. subst z. eauto.
Qed.

(** Updating the mesh with the wall, without any request: eight elements lose their nodes, and a coarse element is added
    where they are. *)
Example wall_loses :
  match wall_mesh with
  | Ok s => lost s = [] /\ length (s_elems s) = 14 /\
            match update_mesh 20 2 wall never never [] s with
            | Ok s' => lost s' = [[2; 2; 0]; [2; 2; 1]; [2; 2; 2]; [2; 2; 3]; [2; 3; 0]; [2; 3; 1]; [2; 3; 2]; [2; 3; 3]] /\
                       In [2] (where_are s')
            | _ => False
            end
  | _ => False
  end.
Proof. vm_compute. repeat split. auto 10. Qed.

Theorem update_orphans_refuted : ~ no_element_lost.
Proof.
  intros H. pose proof wall_loses as W. destruct wall_mesh as [s| | |] eqn:Es; try contradiction. destruct W as (_ & _ & W).
  destruct (update_mesh 20 2 wall never never [] s) as [s'| | |] eqn:Eu; try contradiction. destruct W as [W _].
  apply (lost_orphans s' [2; 2; 0]); [rewrite W; now left|].
  apply (H 2 wall never never [] s 20 s'); [apply wall_mesh_settled, Es| |exact Eu].
  apply linked_check. clear - Es. vm_compute in Es. injection Es as <-. vm_compute. reflexivity.
Qed.
Print Assumptions update_orphans_refuted.

(** What is true: a mesh that fills its tree loses no element. *)
Theorem update_orphans_partial : forall n surf ref unref cons st fuel st',
  settled n st -> covered st -> linked st -> no_surface st -> (forall q, surf q = false) ->
  update_mesh fuel n surf ref unref cons st = Ok st' -> no_orphans st' /\ filled st'.
Proof.
  intros n surf ref unref cons st fuel st' S0 Cv Lk Ns Sf E.
  destruct (update_complete n surf ref unref cons st S0 Cv Lk Ns Sf) as (f0 & H).
  destruct (H (f0 + fuel) ltac:(lia)) as (st2 & E2 & _ & F & O & _).
  pose proof (update_fuel n surf ref unref cons st fuel st' E (f0 + fuel) ltac:(lia)). assert (st2 = st') as -> by congruence. auto.
Qed.
Print Assumptions update_orphans_partial.

(** Also true, for every mesh: refinement and unrefinement before the flood fill lose no element. *)
Theorem refine_unrefine_no_orphans : forall n surf orig st s1 s2 fuel, consistent n st -> no_orphans st ->
  (let! s := refine_by_record n surf false st in refine_by_record n surf true s) = Ok s1 -> unrefine_loop fuel n orig s1 = Ok s2 ->
  consistent n s2 /\ no_orphans s2.
Proof.
  intros n surf orig st s1 s2 fuel C O E1 E2. apply consistent_Cons in C. destruct (refine_both n surf st C) as (s & E & F & _).
  rewrite E in E1. injection E1 as <-. destruct (unrefine_ok n orig fuel s (f_cons _ _ _ _ F)) as [K|(s' & K & G)]; [congruence|].
  rewrite E2 in K. injection K as <-. pose proof (c_cons _ _ _ G) as C2. split; [now apply consistent_Cons|].
  apply (Whole_no_orphans n s2 C2), (c_whole _ _ _ G), (f_whole _ _ _ _ F), (Whole_no_orphans n st C), O.
Qed.
Print Assumptions refine_unrefine_no_orphans.

(** ** C76 *)

(** The full statement: the result does not depend on the order in which the parallel loop over the extrusion connections
    is carried out. *)
Definition order_irrelevant : Prop := forall n surf ref unref cons cons' st fuel, settled n st -> Permutation cons cons' ->
  update_mesh fuel n surf ref unref cons st = update_mesh fuel n surf ref unref cons' st.

(** Two elements in one dimension and two elements extruded from the first one; coarsening is requested for the second
    element and for one of the extruded ones. *)
Definition extruded_mesh : state :=
  mk_state (s_tree locked_mesh) [mk_elem (Some [0]) false 0%Z false; mk_elem (Some [1]) false 0%Z false;
                                 mk_elem None true 0%Z false; mk_elem None true 0%Z false].
Definition coarse_1_3 (i : nat) : bool := (i =? 1) || (i =? 3).

Example order_matters :
  match update_mesh 5 1 flat never coarse_1_3 [(2, 0); (3, 0)] extruded_mesh, update_mesh 5 1 flat never coarse_1_3 [(3, 0); (2, 0)] extruded_mesh with
  | Ok a, Ok b => where_are a = [[]] /\ where_are b = [[0]; [1]]
  | _, _ => False
  end.
Proof. vm_compute. repeat split. Qed.

Theorem update_order_refuted : ~ order_irrelevant.
Proof.
  intros H. pose proof order_matters as O.
  rewrite (H 1 flat never coarse_1_3 [(2, 0); (3, 0)] [(3, 0); (2, 0)] extruded_mesh 5) in O.
  - destruct (update_mesh 5 1 flat never coarse_1_3 [(3, 0); (2, 0)] extruded_mesh); try contradiction. destruct O as [O1 O2]. congruence.
  - destruct locked_mesh_fine as ([R K] & _). split; [exact R|]. intros p x z Hx Hz. destruct (K p x z Hx Hz) as (K1 & i & e & -> & K2 & K3).
    split; [exact K1|]. destruct i as [|[|i]]; cbn in K2; try (destruct i; discriminate); injection K2 as <-; cbn in K3; injection K3 as <-.
    + exists 0. eexists. repeat split.
    + exists 1. eexists. repeat split.
  - apply perm_swap.
Qed.
Print Assumptions update_order_refuted.

(** What is true, when no extruded element has elements extruded from it: the request passed on to an element does not
    depend on the order if refinement is requested for it or for one of its extruded elements, or if coarsening is
    requested for all or for none of its extruded elements. *)
Theorem update_order_partial : forall ref unref cons cons' st i, Permutation cons cons' -> i < length (s_elems st) ->
  (forall c c', In c cons -> In c' cons -> fst c <> snd c') -> (forall c, In c cons -> fst c < length (s_elems st)) ->
  (wants_finer ref unref cons st i \/ (forall o, In (o, i) cons -> only_coarser ref unref o) \/ (forall o, In (o, i) cons -> ~ only_coarser ref unref o)) ->
  record_of (pass_requests cons (decide ref unref st)) i = record_of (pass_requests cons' (decide ref unref st)) i.
Proof. exact order_independent. Qed.
Print Assumptions update_order_partial.
