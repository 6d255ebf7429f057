(** Model of random_R, random_p, random_transform and of the texts of a Transform,
    general_robotics_toolbox.py:906-917 and 504-523. *)
From Coq Require Import Reals List String Ascii.
From Verif Require Import LinAlg RealAux Py ModelRot ModelTransform.
Import ListNotations.
Open Scope R_scope.

(** general_robotics_toolbox.py:906-909 [random_R] on the four numbers drawn by [np.random.rand(4)];
    [NaN]: 0/0 when all four are 0. *)
Definition random_R (draw : quat) : flt mat3 :=
  if Reqb (qnorm draw) 0 then NaN
  else Fin (q2R (Q4 (q0 draw / qnorm draw) (q1 draw / qnorm draw) (q2 draw / qnorm draw) (q3 draw / qnorm draw))).
(** general_robotics_toolbox.py:911-912 [random_p] *)
Definition random_p (draw : vec3) : vec3 := draw.
(** general_robotics_toolbox.py:914-915 [random_transform]; [NaN]: R is not a number *)
Definition random_transform (draw : quat) (draw' : vec3) : flt transform :=
  match random_R draw with NaN => NaN | Fin A => Fin (Tf A (random_p draw') None None) end.

Open Scope string_scope.
Definition nl : string := String (Ascii.ascii_of_nat 10) "".
Definition quote : ascii := Ascii.ascii_of_nat 34.
Definition quoted (s : string) : string := String quote s ++ String quote "".
(** [s.replace('\n', t)] *)
Fixpoint replace_nl (t s : string) : string :=
  match s with
  | "" => ""
  | String c s' => if Ascii.eqb c (Ascii.ascii_of_nat 10) then t ++ replace_nl t s' else String c (replace_nl t s')
  end.
(** [np.array_repr]/[np.array_str] with precision 4 are arbitrary functions. *)
Section Text.
Context (mat_text : mat3 -> string) (vec_text : vec3 -> string).
(** general_robotics_toolbox.py:504-513 [__repr__] *)
Definition transform_repr (T : transform) : string :=
  String.concat nl
    (app ["Transform("; "    R = " ++ replace_nl (nl ++ "        ") (mat_text (tR T)); "    p = " ++ vec_text (tp T)]
     (app (match t_parent T with Some f => ["    parent_frame_id = " ++ quoted f] | None => [] end)
     (app (match t_child T with Some f => ["    child_frame_id = " ++ quoted f] | None => [] end)
     [")" ++ nl]))).
(** general_robotics_toolbox.py:515-523 [__str__] *)
Definition transform_str (T : transform) : string :=
  String.concat nl
    (app ["R = " ++ replace_nl (nl ++ "    ") (mat_text (tR T)); "p = " ++ vec_text (tp T)]
     (app (match t_parent T with Some f => ["parent_frame_id = " ++ quoted f] | None => [] end)
     (app (match t_child T with Some f => ["child_frame_id = " ++ quoted f] | None => [] end)
     [nl]))).
End Text.
