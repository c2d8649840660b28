(** What the bit-scan functions compute, in terms of the bits of a word. *)
From Coq Require Import ZArith List Bool.
Import ListNotations.
Local Open Scope Z_scope.

Definition word (w : nat) (v : Z) : Prop := 0 <= v < 2 ^ Z.of_nat w.

(** [k] is the position of the lowest set bit of [v] *)
Definition lowest (v k : Z) : Prop := 0 <= k /\ Z.testbit v k = true /\ forall j, 0 <= j < k -> Z.testbit v j = false.

(** the positions of the set bits among the [w] lowest *)
Definition members (w : nat) (v : Z) : list nat := filter (fun i => Z.testbit v (Z.of_nat i)) (seq 0 w).
