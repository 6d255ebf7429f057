(** What it means that vectors of joint values are listed nearest first. *)
From Coq Require Import Reals ZArith List Permutation.
From Flocq Require Import Core.Core.
From Verif Require Import RealAux ModelFloat FactsB64.
Import ListNotations.
Open Scope R_scope.

(** the exact Euclidean distance between two vectors of stored numbers *)
Definition joint_dist (x y : list b64) : R := sqrt (fold_right (fun p s => (bval (fst p) - bval (snd p)) ^ 2 + s) 0 (combine x y)).
(** the length of the vector with entries |a - l| + e *)
Fixpoint reach2 (e q : list R) (last : list b64) : R :=
  match e, q, last with
  | d :: e, a :: q, l :: last => (Rabs (a - bval l) + d) ^ 2 + reach2 e q last
  | _, _, _ => 0
  end.
Definition reach_dist (e q : list R) (last : list b64) : R := sqrt (reach2 e q last).
(** what np.argsort promises: the indices, each once, and finite keys in increasing order (wherever it puts infinities and NaNs) *)
Definition sorts_keys (argsort : list b64 -> list nat) : Prop :=
  forall l, Permutation (argsort l) (seq 0 (length l)) /\
    forall i j a b x y, (i < j)%nat -> nth_error (argsort l) i = Some a -> nth_error (argsort l) j = Some b ->
      nth_error l a = Some x -> nth_error l b = Some y -> bfin x -> bfin y -> bval x <= bval y.
(** each vector is no farther from last than the later ones, up to rounding *)
Definition nearest_first (last : list b64) (sols : list (list b64)) : Prop :=
  forall i j x y, (i < j)%nat -> nth_error sols i = Some x -> nth_error sols j = Some y ->
    joint_dist x last <= (1 + bpow radix2 (-44)) * joint_dist y last + bpow radix2 (-440).
