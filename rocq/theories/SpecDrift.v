(** A pose sent n times through a message. *)
From Coq Require Import Reals.
From Verif Require Import LinAlg Py ModelFloat ModelFloat5.
Fixpoint trips (A : arith) (n : nat) (T : gtf A) : out (gtf A) :=
  match n with
  | O => Ok T
  | S k => let* m := g_transform2msg A T in trips A k (g_msg2transform A m)
  end.
