(** Model of class Robot, general_robotics_toolbox.py:334-453. *)
From Coq Require Import Reals ZArith String List Bool.
From Verif Require Import LinAlg RealAux Py ModelTransform.
Import ListNotations.
Open Scope R_scope.

(** Joint types 0 (rotary), 1 (prismatic), 2 and 3 (mobile). *)
Inductive jtype := Rotary | Prismatic | Mobile2 | Mobile3.

(** A constructed Robot. H and P are kept as lists of columns.  M is kept as given
    (6x6 matrices by rows). *)
Record robot := Rb {
  rH : list vec3;
  rP : list vec3;
  rtype : list jtype;
  rlower : option (list R);
  rupper : option (list R);
  rvel : option (list R);
  racc : option (list R);
  rM : option (list (list (list R)));
  rRtool : option mat3;
  rptool : option vec3;
  rnames : option (list string);
  rroot : option string;
  rtip : option string;
  rflange : option transform;
  rbase : option transform }.

(** A two-dimensional array given by its number of rows and its columns. *)
Record colarray := Cols { nrows : nat; columns : list (list R) }.
(** numpy arrays are rectangular *)
Definition rectangular (a : colarray) : Prop := Forall (fun c => List.length c = nrows a) (columns a).

(** Arguments of the constructor, before any check. *)
Record robot_args := Ra {
  aH : colarray;
  aP : colarray;
  atype : list Z;
  alower : option (list R);
  aupper : option (list R);
  avel : option (list R);
  aacc : option (list R);
  aM : option (list (list (list R)));
  aRtool : option mat3;
  aptool : option vec3;
  anames : option (list string);
  aroot : option string;
  atip : option string;
  aflange : option transform;
  abase : option transform }.

(** [np.linalg.norm] of a column of any length *)
Definition norm_l (c : list R) : R := sqrt (fold_right (fun x s => x * x + s) 0 c).

Definition jtype_of (z : Z) : option jtype :=
  match z with 0%Z => Some Rotary | 1%Z => Some Prismatic | 2%Z => Some Mobile2 | 3%Z => Some Mobile3 | _ => None end.
Fixpoint jtypes_of (l : list Z) : option (list jtype) :=
  match l with
  | [] => Some []
  | z :: l' => match jtype_of z, jtypes_of l' with Some j, Some js => Some (j :: js) | _, _ => None end
  end.
Fixpoint cols3 (l : list (list R)) : option (list vec3) :=
  match l with
  | [] => Some []
  | c :: l' => match as_row3 c, cols3 l' with Some v, Some vs => Some (v :: vs) | _, _ => None end
  end.

Definition opt_len_ok {A} (l : option (list A)) (n : nat) : bool :=
  match l with None => true | Some l => Nat.eqb (List.length l) n end.
(** [m.shape == (6,6)] *)
Definition shape66 (m : list (list R)) : bool :=
  (Nat.eqb (List.length m) 6 && forallb (fun r => Nat.eqb (List.length r) 6) m)%bool.

(** general_robotics_toolbox.py:356-453 [Robot.__init__].
    Simplification: [H[:,i]] for a rectangular array; the tool, flange and base
    arrive already typed (the constructor does not inspect them). *)
Definition Robot_init (a : robot_args) : out robot :=
  (* 397-398 *)
  let* _ := assert_ (forallb (fun c => isclose (1/100000) (1/100000000) (norm_l c) 1) (columns (aH a))) in
  (* 400-401 *)
  let* _ := assert_ (forallb (fun j => match jtype_of j with Some _ => true | None => false end) (atype a)) in
  (* 403-404 *)
  let* _ := assert_ (Nat.eqb (nrows (aH a)) 3 && Nat.eqb (nrows (aP a)) 3) in
  let n := List.length (atype a) in
  let* _ := assert_ (Nat.eqb (List.length (columns (aH a)) + 1) (List.length (columns (aP a)))
                     && Nat.eqb (List.length (columns (aH a))) n) in
  (* 406-413 *)
  let* lims :=
    match alower a, aupper a with
    | Some l, Some u =>
        let* _ := assert_ (Nat.eqb (List.length l) n) in
        let* _ := assert_ (Nat.eqb (List.length u) n) in
        Ok (Some l, Some u)
    | _, _ => Ok (None, None)
    end in
  (* 415-425 *)
  let* _ := assert_ (opt_len_ok (avel a) n) in
  let* _ := assert_ (opt_len_ok (aacc a) n) in
  (* 427-433 *)
  let* _ := match aM a with
            | None => Ok tt
            | Some M => let* _ := assert_ (Nat.eqb (List.length M) (List.length (columns (aP a)))) in
                        assert_ (forallb shape66 M)
            end in
  (* 435-440 *)
  let tool := match aRtool a, aptool a with Some R, Some p => (Some R, Some p) | _, _ => (None, None) end in
  (* 446-447 *)
  let* _ := assert_ (opt_len_ok (anames a) n) in
  match cols3 (columns (aH a)), cols3 (columns (aP a)), jtypes_of (atype a) with
  | Some H, Some P, Some ty =>
      Ok (Rb H P ty (fst lims) (snd lims) (avel a) (aacc a) (aM a) (fst tool) (snd tool)
             (anames a) (aroot a) (atip a) (aflange a) (abase a))
  | _, _, _ => Err AssertionError (* unreachable for rectangular arrays after the checks above *)
  end.
