(** Specifications for sharing of arrays. *)
From Coq Require Import Reals List String Arith.
From Verif Require Import LinAlg RealAux Py ModelTransform ModelRobot ModelMem.
Import ListNotations.
Open Scope R_scope.

(** The addresses of an array or object. *)
Definition addr_v (v : vref) : list nat := [ax v; ay v; az v].
Definition addr_m (A : mref) : list nat := addr_v (mc0 A) ++ addr_v (mc1 A) ++ addr_v (mc2 A).
Definition addr_T (T : tobj) : list nat := addr_m (oR T) ++ addr_v (op T).
Definition addr_opt {A} (f : A -> list nat) (o : option A) : list nat := match o with Some x => f x | None => [] end.
Definition addr_r (r : robj) : list nat :=
  flat_map addr_v (oH r) ++ flat_map addr_v (oP r) ++ addr_opt addr_m (oRtool r) ++ addr_opt addr_v (optool r)
  ++ addr_opt addr_T (oflange r) ++ addr_opt addr_T (obase r).
(** Everything lies in the memory in use. *)
Definition live (m : mem) (l : list nat) : Prop := Forall (fun a => (a < next m)%nat) l.
Definition apart (l l' : list nat) : Prop := forall a, In a l -> ~ In a l'.
(** Any sequence of later assignments. *)
Definition writes (m : mem) (ws : list (nat * R)) : mem := fold_left (fun m w => write m (fst w) (snd w)) ws m.
Definition only (ws : list (nat * R)) (l : list nat) : Prop := Forall (fun w => In (fst w) l) ws.
(** The call changed nothing that existed. *)
Definition kept (m m' : mem) : Prop := (next m <= next m')%nat /\ forall a, (a < next m)%nat -> cell m' a = cell m a.
(** A new pose with value [v]: nothing that existed is changed, later assignments to older arrays do not change the pose,
    and assignments to the arrays of the pose change nothing that existed. *)
Definition independent (m m' : mem) (T : tobj) (v : transform) : Prop :=
  readT m' T = v /\ kept m m' /\ live m' (addr_T T) /\
  (forall ws, Forall (fun w => (fst w < next m)%nat) ws -> readT (writes m' ws) T = v) /\
  (forall ws a, only ws (addr_T T) -> (a < next m)%nat -> cell (writes m' ws) a = cell m a).
