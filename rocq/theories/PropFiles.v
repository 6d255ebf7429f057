(** Property C102: the files read by the URDF loaders. *)
From Coq Require Import List String Ascii Reals.
From Verif Require Import LinAlg Py ModelRobot ModelUrdf ModelFiles SpecPath.
Import ListNotations.
Open Scope string_scope.

Lemma split_nonempty s : split_slash s <> [].
Proof. induction s as [|c s IH]; cbn [split_slash]; [discriminate|]. destruct (split_slash s); [contradiction|]. destruct (Ascii.eqb _ _); discriminate. Qed.
Lemma split_app_slash a b : split_slash (a ++ String "/" b) = (split_slash a ++ split_slash b)%list.
Proof.
  induction a as [|c a IH]; cbn [append split_slash].
  - destruct (split_slash b) eqn:E; [destruct (split_nonempty b E)|]. reflexivity.
  - rewrite IH. destruct (split_slash a) eqn:E; [destruct (split_nonempty a E)|]. cbn [app]. destruct (Ascii.eqb c _); reflexivity.
Qed.
Lemma ends_slash a : last_char a = Some slash -> exists a', a = a' ++ "/".
Proof.
  induction a as [|c a IH]; cbn [last_char]; [discriminate|]. destruct a as [|d a].
  - intros [= ->]. exists "". reflexivity.
  - intros H. destruct (IH H) as [a' E]. exists (String c a'). rewrite E. reflexivity.
Qed.
Lemma app_assoc_s a b c : (a ++ b) ++ c = a ++ (b ++ c).
Proof. induction a as [|x a IH]; cbn [append]; [reflexivity|]. rewrite IH. reflexivity. Qed.
Lemma join_walk_from start a b : a <> "" -> ~ absolute b -> walk start (path_join a b) = walk (walk start a) b.
Proof.
  intros NA NB. assert (LA : exists d, last_char a = Some d).
  { clear NB. induction a as [|c a IH]; [contradiction|]. cbn [last_char]. destruct a as [|d a]; [eauto|]. apply IH. discriminate. }
  destruct LA as [d LA].
  assert (E : path_join a b = if Ascii.eqb d slash then a ++ b else a ++ String slash b).
  { unfold path_join. rewrite LA. destruct b as [|c b]; [reflexivity|]. destruct (Ascii.eqb c slash) eqn:C; [|reflexivity].
    apply Ascii.eqb_eq in C. subst c. destruct NB. exists b. reflexivity. }
  rewrite E. unfold walk. destruct (Ascii.eqb d slash) eqn:D.
  - apply Ascii.eqb_eq in D. subst d. destruct (ends_slash a LA) as [a' ->]. rewrite app_assoc_s. change ("/" ++ b) with (String "/" b). change "/" with (String "/" ""). rewrite !split_app_slash, !fold_left_app. reflexivity.
  - unfold slash. rewrite split_app_slash, fold_left_app. reflexivity.
Qed.
Lemma walk_down l : ~ In ".." l -> forall place, exists rest, fold_left step l place = (rest ++ place)%list.
Proof.
  induction l as [|x l IH]; intros H place; [exists []; reflexivity|]. cbn [fold_left].
  destruct (IH (fun K => H (or_intror K)) (step place x)) as [rest E]. rewrite E. unfold step.
  destruct (String.eqb x "" || String.eqb x ".")%bool; [eauto|]. destruct (String.eqb x "..") eqn:U; [apply String.eqb_eq in U; subst x; destruct H; left; reflexivity|].
  exists (rest ++ [x])%list. rewrite <- List.app_assoc. reflexivity.
Qed.

(** A name relative to the package is looked up from the package directory, and stays inside it
    when it does not go up. *)
Theorem C102_relative_partial : forall w p dir fname, get_path w p = Ok dir -> dir <> "" -> ~ absolute fname ->
  exists path, resolve_file w fname (Some p) = Ok path /\ place_of path = walk (place_of dir) fname /\ (no_up fname -> inside (place_of dir) (place_of path)).
Proof.
  intros w p dir fname G D A. exists (path_join dir fname). split; [unfold resolve_file; rewrite G; reflexivity|].
  unfold place_of. rewrite (join_walk_from [] dir fname D A). split; [reflexivity|]. intros N. unfold walk at 1. apply walk_down. exact N.
Qed.
(** From any working directory, whatever directory the package has. *)
Lemma located_rel cwd s : ~ absolute s -> located cwd s = walk cwd s.
Proof.
  intros N. destruct s as [|c s]; [reflexivity|]. cbn [located]. destruct (Ascii.eqb c "/") eqn:C; [apply Ascii.eqb_eq in C; subst c; destruct N; exists s; reflexivity|].
  destruct c as [[] [] [] [] [] [] [] []]; try reflexivity. discriminate C.
Qed.
Lemma located_abs cwd s : absolute s -> located cwd s = walk [] s. Proof. intros [t ->]. reflexivity. Qed.
Lemma absolute_dec s : absolute s \/ ~ absolute s.
Proof.
  destruct s as [|c s]; [right; intros [t T]; discriminate T|]. destruct (Ascii.eqb c "/") eqn:C; [apply Ascii.eqb_eq in C; subst c; left; exists s; reflexivity|].
  right. intros [t [= -> _]]. discriminate C.
Qed.
Lemma join_starts a b : a <> "" -> ~ absolute b -> absolute (path_join a b) <-> absolute a.
Proof.
  intros NA NB. assert (E : exists t, path_join a b = a ++ t).
  { unfold path_join. destruct b as [|c b].
    - destruct (last_char a) as [d|] eqn:L; [destruct (Ascii.eqb d slash); eauto|]. destruct a as [|x a]; [contradiction|]. exfalso. clear NA. revert x L. induction a as [|y a IH]; intros x L; [discriminate L|]. exact (IH y L).
    - destruct (Ascii.eqb c slash) eqn:C; [apply Ascii.eqb_eq in C; subst c; destruct NB; exists b; reflexivity|].
      destruct (last_char a) as [d|] eqn:L; [destruct (Ascii.eqb d slash); eauto|]. destruct a as [|x a]; [contradiction|]. exfalso. clear NA. revert x L. induction a as [|y a IH]; intros x L; [discriminate L|]. exact (IH y L). }
  destruct E as [t E]. rewrite E. destruct a as [|x a]; [contradiction|]. cbn [append]. split; intros [s S]; injection S as -> _; eexists; reflexivity.
Qed.
Theorem C102_located : forall w cwd fname,
  (forall path, resolve_file w fname None = Ok path -> located cwd path = located cwd fname) /\
  (forall p dir path, get_path w p = Ok dir -> resolve_file w fname (Some p) = Ok path ->
     (absolute fname -> located cwd path = located cwd fname) /\ (~ absolute fname -> located cwd path = walk (located cwd dir) fname)).
Proof.
  intros w cwd fname. split; [intros path [= <-]; reflexivity|]. intros p dir path G. unfold resolve_file. rewrite G. cbn [bind]. intros [= <-]. split.
  - intros [s ->]. reflexivity.
  - intros NB. destruct dir as [|c dir].
    + change (located cwd "") with cwd. assert (E : path_join "" fname = fname) by (unfold path_join; cbn [last_char]; destruct fname as [|c s]; [reflexivity|]; destruct (Ascii.eqb c slash); reflexivity).
      rewrite E. apply located_rel, NB.
    + set (a := String c dir). assert (NA : a <> "") by discriminate. destruct (absolute_dec a) as [AA | AA].
      * rewrite !located_abs by (try apply join_starts; assumption). apply join_walk_from; assumption.
      * rewrite !located_rel by (rewrite ?join_starts; assumption). apply join_walk_from; assumption.
Qed.
Example C102_located_ex : resolve_file (World (fun _ => Ok "../arm") (fun _ => Err OtherException) (fun _ => Err OtherException) (fun _ => Err OtherException) (fun _ => Err OtherException)) "urdf/arm.xml" (Some "arm") = Ok "../arm/urdf/arm.xml" /\
  located ["src"; "home"] "../arm/urdf/arm.xml" = ["arm.xml"; "urdf"; "arm"; "home"].
Proof. split; reflexivity. Qed.
(** "If specified, fname will be relative to this package": not for absolute names, and names
    with .. leave the package. *)
Theorem C102_package_refuted : exists w p dir fname fname', get_path w p = Ok dir /\
  absolute fname /\ (exists path, resolve_file w fname (Some p) = Ok path /\ ~ inside (place_of dir) (place_of path)) /\
  ~ absolute fname' /\ (exists path, resolve_file w fname' (Some p) = Ok path /\ ~ inside (place_of dir) (place_of path)).
Proof.
  exists (World (fun _ => Ok "/opt/arm") (fun _ => Err OtherException) (fun _ => Err OtherException) (fun _ => Err OtherException) (fun _ => Err OtherException)),
    "arm", "/opt/arm", "/urdf/arm.xml", "../../urdf/arm.xml".
  assert (I : forall path, place_of path = ["arm.xml"; "urdf"] -> ~ inside (place_of "/opt/arm") (place_of path)).
  { intros path -> [rest E]. change (place_of "/opt/arm") with ["arm"; "opt"] in E. destruct rest as [|x [|y rest]]; try discriminate E. injection E as _ _ E. destruct rest; discriminate E. }
  split; [reflexivity|]. split; [eexists; reflexivity|]. split; [eexists; split; [reflexivity | apply I; reflexivity]|].
  split; [intros [s S]; discriminate S|]. eexists; split; [reflexivity | apply I; reflexivity].
Qed.
(** However the document gets in, the robot is that of the document, with the links asked for. *)
Theorem C102_sources : forall w u text key fname package path root_link tip_link,
  resolve_file w fname package = Ok path -> parse_urdf w text = Ok u ->
  (read_file w path = Ok text -> robot_from_xml_file w fname package root_link tip_link = robot_from_urdf u root_link tip_link) /\
  (process_xacro w path = Ok text -> robot_from_xacro_file w fname package root_link tip_link = robot_from_urdf u root_link tip_link) /\
  (parameter w key = Ok u -> robot_from_parameter_server w (Some key) root_link tip_link = robot_from_urdf u root_link tip_link) /\
  (parameter w "robot_description" = Ok u -> robot_from_parameter_server w None root_link tip_link = robot_from_urdf u root_link tip_link) /\
  robot_from_xml_string w text root_link tip_link = robot_from_urdf u root_link tip_link.
Proof.
  intros w u text key fname package path root tip R P.
  unfold robot_from_xml_file, robot_from_xacro_file, robot_from_parameter_server, robot_from_xml_string, load_xml_to_string, load_xacro_to_string. rewrite R. cbn [bind rbind].
  split; [intros ->; cbn [rbind]; rewrite P; reflexivity|]. split; [intros ->; cbn [rbind]; rewrite P; reflexivity|]. split; [intros ->; reflexivity|]. split; [intros ->; reflexivity|].
  rewrite P. reflexivity.
Qed.
(** A failure of any source is the failure of the loader. *)
Theorem C102_failures : forall w fname package root_link tip_link e,
  (forall p, package = Some p -> get_path w p = Err e -> robot_from_xml_file w fname package root_link tip_link = Ret (Err e) /\ robot_from_xacro_file w fname package root_link tip_link = Ret (Err e)) /\
  (forall path, resolve_file w fname package = Ok path -> read_file w path = Err e -> robot_from_xml_file w fname package root_link tip_link = Ret (Err e)) /\
  (forall path, resolve_file w fname package = Ok path -> process_xacro w path = Err e -> robot_from_xacro_file w fname package root_link tip_link = Ret (Err e)) /\
  (forall text, parse_urdf w text = Err e -> robot_from_xml_string w text root_link tip_link = Ret (Err e)).
Proof.
  intros w fname package root tip e. unfold robot_from_xml_file, robot_from_xacro_file, robot_from_xml_string, load_xml_to_string, load_xacro_to_string, resolve_file. repeat split; intros.
  - subst package. rewrite H0. reflexivity.
  - subst package. rewrite H0. reflexivity.
  - rewrite H. cbn [bind]. rewrite H0. reflexivity.
  - rewrite H. cbn [bind]. rewrite H0. reflexivity.
  - rewrite H. reflexivity.
Qed.
Definition a_world : world :=
  World (fun p => if String.eqb p "arm" then Ok "/opt/arm" else Err OtherException)
        (fun f => if String.eqb f "/opt/arm/urdf/arm.xml" then Ok "<robot/>" else Err OtherException) (fun _ => Err OtherException)
        (fun t => if String.eqb t "<robot/>" then Ok (Urdf [("base", None)] []) else Err ValueError) (fun _ => Err KeyError).
Example C102_relative_partial_ex : get_path a_world "arm" = Ok "/opt/arm" /\ ~ absolute "urdf/arm.xml" /\ no_up "urdf/arm.xml" /\
  place_of "/opt/arm/urdf/arm.xml" = walk (place_of "/opt/arm") "urdf/arm.xml" /\ place_of "/opt/arm/urdf/arm.xml" = ["arm.xml"; "urdf"; "arm"; "opt"].
Proof. repeat split; try reflexivity; [intros [s S]; discriminate S | intros [H | [H | []]]; discriminate H]. Qed.
Example C102_sources_ex : resolve_file a_world "urdf/arm.xml" (Some "arm") = Ok "/opt/arm/urdf/arm.xml" /\ read_file a_world "/opt/arm/urdf/arm.xml" = Ok "<robot/>" /\
  parse_urdf a_world "<robot/>" = Ok (Urdf [("base", None)] []) /\ resolve_file a_world "urdf/arm.xml" (Some "leg") = Err OtherException /\
  robot_from_xml_file a_world "urdf/arm.xml" (Some "leg") None None = Ret (Err OtherException).
Proof. repeat split; reflexivity. Qed.
Print Assumptions C102_relative_partial.
Print Assumptions C102_package_refuted.
Print Assumptions C102_sources.
Print Assumptions C102_failures.
Print Assumptions C102_located.
