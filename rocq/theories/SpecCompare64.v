(** Relations that hold entry by entry. *)
From Coq Require Import Reals.
From Verif Require Import ModelFloat.

Section Entries.
Context {A : arith}.
Definition v_each (P : num A -> num A -> Prop) (a b : v3 (num A)) : Prop := P (w0 a) (w0 b) /\ P (w1 a) (w1 b) /\ P (w2 a) (w2 b).
Definition m_each (P : num A -> num A -> Prop) (X Y : m3 (num A)) : Prop := v_each P (w0 X) (w0 Y) /\ v_each P (w1 X) (w1 Y) /\ v_each P (w2 X) (w2 Y).
Definition t_each (P : num A -> num A -> Prop) (a b : gtf A) : Prop := m_each P (gR a) (gR b) /\ v_each P (gp a) (gp b).
End Entries.
