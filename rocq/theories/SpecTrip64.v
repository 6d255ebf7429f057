(** Where a pose stored in binary64 puts a point: the exact product and sum of the stored numbers. *)
From Coq Require Import Reals List.
From Verif Require Import LinAlg ModelFloat SpecRound FactsB64.
Open Scope R_scope.

Section Moved.
Context {L : libm} {bdot : list b64 -> list b64 -> b64}.
Notation A := (b64_arith L bdot).
Definition moved (T : gtf A) (u : vec3) : vec3 := vadd (mvec (mval (A := A) bval (gR T)) u) (vval (A := A) bval (gp T)).
(** every entry is a number *)
Definition whole (T : gtf A) : Prop := mfin (A := A) bfin (gR T) /\ vfin (A := A) bfin (gp T).
End Moved.
