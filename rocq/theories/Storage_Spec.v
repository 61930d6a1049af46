(** Blocks of an array. *)
From Coq Require Import List Arith.
Import ListNotations.

(** a block: first index and number of entries *)
Definition block := (nat * nat)%type.
Definition covers (b : block) (i : nat) : Prop := fst b <= i < fst b + snd b.
(** every entry of the block is an entry of an array with [size] entries *)
Definition within (size : nat) (b : block) : Prop := forall i, covers b i -> i < size.
Definition disjoint (a b : block) : Prop := forall i, covers a i -> ~ covers b i.
Definition pairwise_disjoint (l : list block) : Prop := ForallOrdPairs disjoint l.
