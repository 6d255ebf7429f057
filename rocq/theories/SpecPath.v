(** Paths as walks in a directory tree (without symbolic links). *)
From Coq Require Import List String Ascii.
Import ListNotations.
Open Scope string_scope.

(** the texts between slashes *)
Fixpoint split_slash (s : string) : list string :=
  match s with
  | EmptyString => [EmptyString]
  | String c s' =>
      match split_slash s' with
      | h :: t => if Ascii.eqb c "/"%char then EmptyString :: h :: t else String c h :: t
      | [] => [] (* never *)
      end
  end.
(** one step: stay, up, or down; the place is written from the leaf to the root *)
Definition step (place : list string) (name : string) : list string :=
  if (String.eqb name "" || String.eqb name ".")%bool then place
  else if String.eqb name ".." then tl place
  else name :: place.
Definition walk (place : list string) (path : string) : list string := fold_left step (split_slash path) place.
(** the place of an absolute path *)
Definition place_of (path : string) : list string := walk [] path.
(** the file lies in the directory *)
Definition inside (dir file : list string) : Prop := exists rest, file = (rest ++ dir)%list.
Definition absolute (path : string) : Prop := exists s, path = String "/" s.
Definition no_up (path : string) : Prop := ~ In ".." (split_slash path).
(** the place that a program running in [cwd] opens *)
Definition located (cwd : list string) (path : string) : list string :=
  match path with String "/" _ => walk [] path | _ => walk cwd path end.
