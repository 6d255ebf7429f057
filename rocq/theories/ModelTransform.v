(** Model of class Transform, general_robotics_toolbox.py:457-528, and
    identity_transform, 902-904. *)
From Coq Require Import Reals String List.
From Verif Require Import LinAlg RealAux Py.
Import ListNotations.
Open Scope R_scope.

(** A constructed Transform.  Frame names are optional strings.
    [self.p] is stored with shape (3,). *)
Record transform := Tf {
  tR : mat3; tp : vec3;
  t_parent : option string; t_child : option string }.

(** Array arguments of the constructor, with just enough structure for the shape
    checks: a matrix is a list of rows. *)
Inductive ndarray :=
| Arr1 (l : list R)            (* shape (len,) *)
| Arr2 (rows : list (list R)). (* shape (rows, cols) when rectangular *)

Definition as_row3 (l : list R) : option vec3 :=
  match l with [a; b; c] => Some (V3 a b c) | _ => None end.
(** value of an array of shape (3,3) *)
Definition as_mat3 (a : ndarray) : option mat3 :=
  match a with
  | Arr2 [r0; r1; r2] =>
      match as_row3 r0, as_row3 r1, as_row3 r2 with
      | Some a, Some b, Some c => Some (mT (of_cols a b c))
      | _, _, _ => None
      end
  | _ => None
  end.
(** value of an array of shape (3,) or (3,1), after [np.reshape(p,(3,))] *)
Definition as_vec3 (a : ndarray) : option vec3 :=
  match a with
  | Arr1 l => as_row3 l
  | Arr2 [[a]; [b]; [c]] => Some (V3 a b c)
  | _ => None
  end.

(** general_robotics_toolbox.py:468-484 [Transform.__init__] *)
Definition Transform_init (R p : ndarray) (parent child : option string) : out transform :=
  match as_mat3 R with
  | None => Err AssertionError
  | Some R => match as_vec3 p with
              | None => Err AssertionError
              | Some p => Ok (Tf R p parent child)
              end
  end.

(** general_robotics_toolbox.py:486-489 [__mul__] *)
Definition tmul (a b : transform) : transform :=
  let R := mmul (tR a) (tR b) in
  let p := vadd (tp a) (mvec (tR a) (tp b)) in
  Tf R p (t_parent a) (t_child b).

(** [np.all(np.isclose(A, B, rtol, atol))] on 3x3 and (3,) arrays *)
Definition m_isclose (rtol atol : R) (A B : mat3) : bool :=
  (isclose rtol atol (m00 A) (m00 B) && isclose rtol atol (m01 A) (m01 B) && isclose rtol atol (m02 A) (m02 B)
   && isclose rtol atol (m10 A) (m10 B) && isclose rtol atol (m11 A) (m11 B) && isclose rtol atol (m12 A) (m12 B)
   && isclose rtol atol (m20 A) (m20 B) && isclose rtol atol (m21 A) (m21 B) && isclose rtol atol (m22 A) (m22 B))%bool.
Definition v_isclose (rtol atol : R) (a b : vec3) : bool :=
  (isclose rtol atol (vx a) (vx b) && isclose rtol atol (vy a) (vy b) && isclose rtol atol (vz a) (vz b))%bool.

(** general_robotics_toolbox.py:491-494 [__eq__]: the third positional argument of
    [np.isclose] is rtol; atol keeps its default 1e-8. *)
Definition teq (a b : transform) : bool :=
  (m_isclose (1/1000000) (1/100000000) (tR a) (tR b) && v_isclose (1/1000000) (1/100000000) (tp a) (tp b))%bool.

(** general_robotics_toolbox.py:499-502 [inv] *)
Definition tinv (a : transform) : transform :=
  let R := mT (tR a) in
  let p := vneg (mvec R (tp a)) in
  Tf R p (t_child a) (t_parent a).

(** general_robotics_toolbox.py:525-528 [isclose]: atol = tol, rtol keeps its
    default 1e-5. *)
Definition tisclose (a b : transform) (tol : R) : bool :=
  (m_isclose (1/100000) tol (tR a) (tR b) && v_isclose (1/100000) tol (tp a) (tp b))%bool.

(** general_robotics_toolbox.py:902-904 [identity_transform] *)
Definition identity_transform : transform := Tf I3 vzero None None.
