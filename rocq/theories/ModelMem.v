(** Memory and sharing of arrays: class Transform, fwdkin, the auxiliary transforms and the in-place
    part of robot6_sphericalwrist_invkin once more, on arrays that are views of a memory
    (general_robotics_toolbox.py:478-502, 530-560, 858-904; general_robotics_toolbox_invkin.py:119-227).
    A numpy array is a list of addresses: [np.reshape], [np.transpose] and basic slices ([P[:,3]])
    are views, that is new lists of old addresses; results of arithmetic, [np.array(x)] and
    fancy indexing ([P[:,[0]]]) are new arrays.
    Simplifications: temporary arrays that nothing refers to after the call are not put into memory; joint limits
    and names are values; attributes of Robot and Transform objects are not reassigned. *)
From Coq Require Import Reals List String Arith.
From Verif Require Import LinAlg RealAux Py ModelRot ModelTransform ModelRobot ModelKin ModelInvkin.
Import ListNotations.
Open Scope R_scope.

Record mem := Mem { cell : nat -> R; next : nat }.
(** views of shape (3,) and (3,3), the latter by columns *)
Record vref := VR { ax : nat; ay : nat; az : nat }.
Record mref := MR { mc0 : vref; mc1 : vref; mc2 : vref }.
Definition readv (m : mem) (v : vref) : vec3 := V3 (cell m (ax v)) (cell m (ay v)) (cell m (az v)).
Definition readm (m : mem) (A : mref) : mat3 := of_cols (readv m (mc0 A)) (readv m (mc1 A)) (readv m (mc2 A)).
(** [np.transpose(A)]: a view *)
Definition transposed (A : mref) : mref :=
  MR (VR (ax (mc0 A)) (ax (mc1 A)) (ax (mc2 A))) (VR (ay (mc0 A)) (ay (mc1 A)) (ay (mc2 A))) (VR (az (mc0 A)) (az (mc1 A)) (az (mc2 A))).
(** [a[i] = x] *)
Definition write (m : mem) (a : nat) (x : R) : mem := Mem (fun i => if Nat.eqb i a then x else cell m i) (next m).
Definition writev (m : mem) (v : vref) (x : vec3) : mem := write (write (write m (ax v) (vx x)) (ay v) (vy x)) (az v) (vz x).
(** a new array *)
Definition new_v (m : mem) (x : vec3) : mem * vref :=
  let v := VR (next m) (next m + 1) (next m + 2) in
  (writev (Mem (cell m) (next m + 3)) v x, v).
Definition new_m (m : mem) (A : mat3) : mem * mref :=
  let (m1, a) := new_v m (col0 A) in let (m2, b) := new_v m1 (col1 A) in let (m3, c) := new_v m2 (col2 A) in
  (m3, MR a b c).

(** A Transform object; [op] may be a view of the caller's array. *)
Record tobj := TO { oR : mref; op : vref; o_parent : option string; o_child : option string }.
Definition readT (m : mem) (T : tobj) : transform := Tf (readm m (oR T)) (readv m (op T)) (o_parent T) (o_child T).

(** general_robotics_toolbox.py:478-484 [Transform.__init__]: [np.array(R)] copies,
    [np.reshape(p,(3,))] does not. *)
Definition m_Transform (m : mem) (A : mref) (p : vref) (parent child : option string) : mem * tobj :=
  let (m1, A') := new_m m (readm m A) in (m1, TO A' p parent child).
(** general_robotics_toolbox.py:486-489 [__mul__] *)
Definition m_mul (m : mem) (a b : tobj) : mem * tobj :=
  let (m1, A) := new_m m (mmul (readm m (oR a)) (readm m (oR b))) in
  let (m2, p) := new_v m1 (vadd (readv m1 (op a)) (mvec (readm m1 (oR a)) (readv m1 (op b)))) in
  m_Transform m2 A p (o_parent a) (o_child b).
(** general_robotics_toolbox.py:499-502 [inv] *)
Definition m_inv (m : mem) (a : tobj) : mem * tobj :=
  let A := transposed (oR a) in
  let (m1, p) := new_v m (vneg (mvec (readm m A) (readv m (op a)))) in
  m_Transform m1 A p (o_child a) (o_parent a).
(** general_robotics_toolbox.py:902-904 [identity_transform] *)
Definition m_identity (m : mem) : mem * tobj :=
  let (m1, A) := new_m m I3 in let (m2, p) := new_v m1 vzero in m_Transform m2 A p None None.

(** A Robot object: [self.H = H], [self.P = P], ... keep the caller's arrays
    (general_robotics_toolbox.py:431-450).  [orest] holds the other attributes. *)
Record robj := RO {
  oH : list vref; oP : list vref; oRtool : option mref; optool : option vref;
  oflange : option tobj; obase : option tobj; orest : robot }.
Definition read_robot (m : mem) (r : robj) : robot :=
  Rb (map (readv m) (oH r)) (map (readv m) (oP r)) (rtype (orest r)) (rlower (orest r)) (rupper (orest r)) (rvel (orest r)) (racc (orest r))
     (rM (orest r)) (option_map (readm m) (oRtool r)) (option_map (readv m) (optool r))
     (rnames (orest r)) (rroot (orest r)) (rtip (orest r)) (option_map (readT m) (oflange r)) (option_map (readT m) (obase r)).

(** general_robotics_toolbox.py:858-878 [apply_robot_aux_transforms] *)
Definition m_apply_aux (m : mem) (r : robj) (T : tobj) : mem * tobj :=
  let (m1, T1) := match oflange r with Some F => m_mul m T F | None => (m, T) end in
  let (m2, T2) := match oRtool r, optool r with
                  | Some A, Some p => let (m', W) := m_Transform m1 A p None None in m_mul m' T1 W
                  | _, _ => (m1, T1)
                  end in
  match obase r with Some B => m_mul m2 B T2 | None => (m2, T2) end.
(** general_robotics_toolbox.py:880-900 [unapply_robot_aux_transforms] *)
Definition m_unapply_aux (m : mem) (r : robj) (T : tobj) : mem * tobj :=
  let (m1, T1) := match oRtool r, optool r with
                  | Some A, Some p => let (m', W) := m_Transform m A p None None in let (m'', W') := m_inv m' W in m_mul m'' T W'
                  | _, _ => (m, T)
                  end in
  let (m2, T2) := match oflange r with Some F => let (m', F') := m_inv m1 F in m_mul m' T1 F' | None => (m1, T1) end in
  match obase r with Some B => let (m', B') := m_inv m2 B in m_mul m' B' T2 | None => (m2, T2) end.
(** general_robotics_toolbox.py:530-560 [fwdkin]; the loop works on new arrays only
    ([P[:,[0]]] is a copy), so only its result is put into memory. *)
Definition m_fwdkin (m : mem) (r : robj) (theta : list R) (ignore : bool) : mem * out tobj :=
  let v := read_robot m r in
  match (let* _ := check_limits v theta ignore in
         match rP v with [] => Err IndexError | p0 :: P => fk_loop (rtype v) (rH v) P theta I3 p0 end) with
  | Err e => (m, Err e)
  | Ok (A, p) =>
      let (m1, A') := new_m m A in let (m2, p') := new_v m1 p in
      let (m3, T) := m_Transform m2 A' p' None None in
      let (m4, T') := m_apply_aux m3 r T in (m4, Ok T')
  end.

(** general_robotics_toolbox_invkin.py:150-154: [P[:,3] += P[:,4]; P[:,4] = 0] *)
Definition m_correct4 (m : mem) (H P : list vref) : mem * out unit :=
  match index P 4 with
  | Err e => (m, Err e)
  | Ok p4 =>
      if vzerob (readv m p4) then (m, Ok tt)
      else match index H 3 with
           | Err e => (m, Err e)
           | Ok h3 =>
               if vzerob (vsub (readv m p4) (vscale (dot (readv m p4) (readv m h3)) (readv m h3)))
               then match index P 3 with
                    | Err e => (m, Err e)
                    | Ok p3 => let m1 := writev m p3 (vadd (readv m p3) (readv m p4)) in (writev m1 p4 vzero, Ok tt)
                    end
               else (m, Err AssertionError)
           end
  end.
(** general_robotics_toolbox_invkin.py:156-160 *)
Definition m_correct5 (m : mem) (H P : list vref) : mem * out unit :=
  match index P 5 with
  | Err e => (m, Err e)
  | Ok p5 =>
      if vzerob (readv m p5) then (m, Ok tt)
      else match index H 5 with
           | Err e => (m, Err e)
           | Ok h5 =>
               if vzerob (vsub (readv m p5) (vscale (dot (readv m p5) (readv m h5)) (readv m h5)))
               then match index P 6 with
                    | Err e => (m, Err e)
                    | Ok p6 => let m1 := writev m p6 (vadd (readv m p6) (readv m p5)) in (writev m1 p5 vzero, Ok tt)
                    end
               else (m, Err AssertionError)
           end
  end.
Section Robot6.
Context (argsort : list (flt R) -> list nat).
(** general_robotics_toolbox_invkin.py:119-227 [robot6_sphericalwrist_invkin].  R06, p0T, H and P are
    names for the arrays themselves, so everything after line 160 sees the memory as line 160 leaves it. *)
Definition m_robot6 (m : mem) (r : robj) (pose : tobj) (last : option (list R)) : mem * out (list (list R)) :=
  let (m1, pose2) := m_unapply_aux m r pose in
  match m_correct4 m1 (oH r) (oP r) with
  | (m2, Err e) => (m2, Err e)
  | (m2, Ok _) =>
      match m_correct5 m2 (oH r) (oP r) with
      | (m3, Err e) => (m3, Err e)
      | (m3, Ok _) => let v := read_robot m3 r in (m3, robot6_solve argsort v (rP v) (readT m3 pose2) last)
      end
  end.
End Robot6.
