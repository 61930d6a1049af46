(** /repo/src/Layer_sequence.cpp, with real numbers for doubles and integers without overflow *)
From Coq Require Import Reals ZArith List.
Import ListNotations.
Local Open Scope R_scope.

(** std::ceil *)
Definition ceil (x : R) : Z := (- Int_part (- x))%Z.

(** n_grow, Layer_sequence.cpp:7-11. [std::log] is the natural logarithm; a wall spacing that is not positive is not supported. *)
Definition n_grow (ws : R) : Z := ceil (ln (0.5 / ws) / ln 2).
(** n_layers, Layer_sequence.cpp:13-16 *)
Definition n_layers (ws : R) (nw : Z) : Z := (nw + n_grow ws)%Z.
(** spacing, Layer_sequence.cpp:18-22; [std::pow(2., n)] with integer [n] is [powerRZ 2 n] *)
Definition spacing (ws : R) (nw i_layer : Z) : R :=
  let first_growth := powerRZ 2 (nw - n_layers ws nw) in
  if (i_layer <? nw)%Z then ws else powerRZ 2 (i_layer - n_layers ws nw) * (1 - ws * IZR nw + first_growth).
(** cumulative_height, Layer_sequence.cpp:24-30 *)
Definition cumulative_height (ws : R) (nw i_layer : Z) : R :=
  fold_left (fun total j_layer => total + spacing ws nw (Z.of_nat j_layer)) (seq 0 (Z.to_nat i_layer)) 0.
