(** Loops and arrays of modelled code; models nothing of /repo by itself.

    [ofold f l s] is a loop whose index runs through the list [l] (usually [seq 0 n], i.e. [for (int i = 0; i < n; ++i)])
    and whose body transforms the state [s]; it stops at the first exception or undefined behaviour.
    Arrays are lists; access outside of the array is undefined behaviour. *)
From Coq Require Import List Arith Lia.
From Verif Require Import Outcome ListUtil.
Import ListNotations.

Fixpoint ofold {X S : Type} (f : X -> S -> outcome S) (l : list X) (s : S) : outcome S :=
  match l with
  | [] => Ok s
  | x :: l' => let! s' := f x s in ofold f l' s'
  end.

Definition aget {A : Type} (l : list A) (i : nat) : outcome A := of_option_ub (nth_error l i).
Definition aset {A : Type} (l : list A) (i : nat) (x : A) : outcome (list A) :=
  if i <? length l then Ok (set_nth i x l) else Ub.

Lemma bind_assoc {A B C} (x : outcome A) (f : A -> outcome B) (g : B -> outcome C) :
  bind (bind x f) g = bind x (fun a => bind (f a) g).
Proof. destruct x; reflexivity. Qed.

Lemma ofold_app {X S} (f : X -> S -> outcome S) l m s : ofold f (l ++ m) s = bind (ofold f l s) (ofold f m).
Proof.
  revert s; induction l as [|x l IH]; intros s; cbn; [reflexivity|]. rewrite bind_assoc.
  destruct (f x s); cbn; auto.
Qed.

Lemma ofold_ext {X S} (f g : X -> S -> outcome S) l s : (forall x s, In x l -> f x s = g x s) -> ofold f l s = ofold g l s.
Proof.
  revert s; induction l as [|x l IH]; intros s H; cbn; [reflexivity|]. rewrite H by (now left).
  destruct (g x s); cbn; auto. apply IH. intros y t Hy. apply H. now right.
Qed.

Lemma ofold_map {X Y S} (h : Y -> X) (f : X -> S -> outcome S) l s : ofold f (map h l) s = ofold (fun y => f (h y)) l s.
Proof. revert s; induction l as [|y l IH]; intros s; cbn; [reflexivity|]. destruct (f (h y) s); cbn; auto. Qed.

Lemma ofold_nest {X Y S} (f : X -> Y -> S -> outcome S) (l : list X) (m : list Y) s :
  ofold (fun x => ofold (f x) m) l s = ofold (fun p => f (fst p) (snd p)) (list_prod l m) s.
Proof.
  revert s; induction l as [|x l IH]; intros s; cbn [ofold list_prod]; [reflexivity|].
  rewrite ofold_app, (ofold_map (fun y => (x, y))). cbn [fst snd].
  change (ofold (fun y => f x y) m s) with (ofold (f x) m s). destruct (ofold (f x) m s); cbn; auto.
Qed.

(** A loop with an invariant that depends on the number of completed passes. *)
Lemma ofold_inv {X S} (f : X -> S -> outcome S) (P : list X -> S -> Prop) l s :
  P [] s ->
  (forall done x rest t, l = done ++ x :: rest -> P done t -> exists t', f x t = Ok t' /\ P (done ++ [x]) t') ->
  exists s', ofold f l s = Ok s' /\ P l s'.
Proof.
  intros H0 Hstep.
  enough (forall rest done t, l = done ++ rest -> P done t -> exists s', ofold f rest t = Ok s' /\ P l s').
  { apply (H l [] s); auto. }
  induction rest as [|x rest IH]; intros done t E HP; cbn.
  - exists t. split; [reflexivity|]. rewrite app_nil_r in E. now subst.
  - destruct (Hstep done x rest t E HP) as (t' & Ef & HP'). rewrite Ef. cbn. apply (IH (done ++ [x]) t'); auto.
    now rewrite <- app_assoc.
Qed.

Lemma aget_ok {A} (l : list A) i d : i < length l -> aget l i = Ok (nth i l d).
Proof. intros H. unfold aget. now rewrite (nth_error_nth' l d H). Qed.

Lemma aget_ub {A} (l : list A) i : length l <= i -> aget l i = Ub.
Proof. intros H. unfold aget. now rewrite (proj2 (nth_error_None l i) H). Qed.

Lemma aset_ok {A} (l : list A) i x : i < length l -> aset l i x = Ok (set_nth i x l).
Proof. intros H. unfold aset. destruct (Nat.ltb_spec i (length l)); [reflexivity|lia]. Qed.

(** A loop in which every pass rewrites its own array element. *)
Lemma ofold_write {X A} (idx : X -> nat) (g : X -> A -> A) (d : A) (L : list X) (l : list A) :
  NoDup (map idx L) -> (forall x, In x L -> idx x < length l) ->
  exists l', ofold (fun x t => let! e := aget t (idx x) in aset t (idx x) (g x e)) L l = Ok l'
    /\ length l' = length l
    /\ (forall x, In x L -> nth (idx x) l' d = g x (nth (idx x) l d))
    /\ (forall k, ~ In k (map idx L) -> nth k l' d = nth k l d).
Proof.
  revert l; induction L as [|x L IH]; intros l Hnd Hlt; cbn [ofold].
  - exists l. repeat split; auto. intros x [].
  - cbn in Hnd. apply NoDup_cons_iff in Hnd as [Hni Hnd]. assert (Hx : idx x < length l) by (apply Hlt; now left).
    rewrite (aget_ok l (idx x) d Hx). cbn [bind]. rewrite (aset_ok _ _ _ Hx). cbn [bind].
    destruct (IH (set_nth (idx x) (g x (nth (idx x) l d)) l) Hnd) as (l' & E & Hlen & Hin & Hout).
    { intros y Hy. rewrite set_nth_length. apply Hlt. now right. }
    exists l'. rewrite set_nth_length in Hlen. repeat split; auto.
    + intros y [->|Hy].
      * rewrite Hout by auto. now apply nth_set_nth_eq.
      * rewrite Hin by auto. rewrite nth_set_nth_neq; [reflexivity|]. intros Eq. apply Hni. rewrite Eq. now apply in_map.
    + intros k Hk. cbn in Hk. rewrite Hout by tauto. apply nth_set_nth_neq. tauto.
Qed.

Lemma NoDup_map_inj {A B} (f : A -> B) l : (forall x y, In x l -> In y l -> f x = f y -> x = y) -> NoDup l -> NoDup (map f l).
Proof.
  intros Hinj. induction l as [|x l IH]; intros Hnd; cbn; [constructor|]. apply NoDup_cons_iff in Hnd as [Hx Hnd].
  constructor.
  - intros Hin. apply in_map_iff in Hin as (y & E & Hy). apply Hx. rewrite (Hinj x y); auto; [now left|now right].
  - apply IH; auto. intros a b Ha Hb. apply Hinj; now right.
Qed.

Lemma NoDup_app' {A} (l m : list A) : NoDup l -> NoDup m -> (forall x, In x l -> ~ In x m) -> NoDup (l ++ m).
Proof.
  intros Hl Hm Hd. induction Hl as [|x l Hx Hl IH]; cbn; auto. constructor.
  - rewrite in_app_iff. intros [H|H]; auto. apply (Hd x); [now left|auto].
  - apply IH. intros y Hy. apply Hd. now right.
Qed.

Lemma NoDup_list_prod {A B} (l : list A) (m : list B) : NoDup l -> NoDup m -> NoDup (list_prod l m).
Proof.
  intros Hl Hm. induction Hl as [|x l Hx Hl IH]; cbn; [constructor|]. apply NoDup_app'; auto.
  - apply NoDup_map_inj; auto. intros a b _ _ E. now injection E.
  - intros p Hp Hq. apply in_map_iff in Hp as (y & <- & Hy). apply in_prod_iff in Hq. tauto.
Qed.
