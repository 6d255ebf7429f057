(** The numerical routines again, over any arithmetic: the same text is read over the
    reals (where it is the model of ModelRot, ModelKin and ModelSub, see FactsFloat) and over
    IEEE 754 binary64, the arithmetic Python and numpy use. *)
From Coq Require Import Reals ZArith List Bool Lia.
From Flocq Require Import Core.Core IEEE754.BinarySingleNaN.
From Verif Require Import LinAlg RealAux Py ModelRot ModelRobot.
Import ListNotations.

(** Numbers and the operations of numpy and math on them.  [nlit a b] is the literal nearest
    to a/b, [npi] is np.pi, [ndot] is np.dot on 1-d arrays (its order of evaluation and its
    use of fused operations are up to the BLAS library), [nfloor x y] is np.floor_divide
    (None for NaN or infinity), [nofZ] an integer as a float.  Comparisons with NaN are
    false. *)
Record arith := Arith {
  num : Type;
  nlit : Z -> Z -> num;
  npi : num;
  nofZ : Z -> num;
  nadd : num -> num -> num; nsub : num -> num -> num; nmul : num -> num -> num; ndiv : num -> num -> num;
  nneg : num -> num; nabs : num -> num; nsqrt : num -> num;
  nsin : num -> num; ncos : num -> num; nacos : num -> num; natan2 : num -> num -> num;
  nlt : num -> num -> bool; nle : num -> num -> bool;
  nfloor : num -> num -> option Z;
  ndot : list num -> list num -> num }.

Section Generic.
Context (A : arith).
Notation num := (num A).
Local Notation "a + b" := (nadd A a b).
Local Notation "a - b" := (nsub A a b).
Local Notation "a * b" := (nmul A a b).
Local Notation "a / b" := (ndiv A a b).

Definition nzero : num := nlit A 0 1.
Definition none1 : num := nlit A 1 1.
(** [np.finfo(np.float64).eps] and its square root *)
Definition neps : num := nlit A 1 (2 ^ 52).
Definition nsqrt_eps : num := nlit A 1 (2 ^ 26).

(** entry-wise operations on 1-d arrays of the same length *)
Definition zip (f : num -> num -> num) (a b : list num) : list num := map (fun p => f (fst p) (snd p)) (combine a b).
Definition l_add := zip (nadd A).
Definition l_sub := zip (nsub A).
Definition l_scale (s : num) (a : list num) : list num := map (fun x => s * x) a.
Definition l_div (a : list num) (s : num) : list num := map (fun x => x / s) a.
Definition l_neg : list num -> list num := map (nneg A).
(** [np.linalg.norm] of a vector: the square root of its dot product with itself *)
Definition l_norm (a : list num) : num := nsqrt A (ndot A a a).
(** [np.cross] *)
Definition l_cross (a b : list num) : list num :=
  match a, b with
  | [a0; a1; a2], [b0; b1; b2] => [a1 * b2 - a2 * b1; a2 * b0 - a0 * b2; a0 * b1 - a1 * b0]
  | _, _ => []
  end.

(** general_robotics_toolbox.py:639-673 [subproblem0] *)
Definition g_subproblem0 (p q k : list num) : out num :=
  let* _ := assert_ (nlt A (ndot A k p) neps && nlt A (ndot A k q) neps)%bool in
  let ep := l_div p (l_norm p) in
  let eq := l_div q (l_norm q) in
  let theta := nlit A 2 1 * natan2 A (l_norm (l_sub ep eq)) (l_norm (l_add ep eq)) in
  if nlt A (ndot A k (l_cross p q)) nzero then Ok (nneg A theta) else Ok theta.

(** general_robotics_toolbox.py:675-711 [subproblem1] *)
Definition g_subproblem1 (p q k : list num) : out num :=
  if nlt A (l_norm (l_sub p q)) nsqrt_eps then Ok nzero
  else
    let k := l_div k (l_norm k) in
    let pp := l_sub p (l_scale (ndot A p k) k) in
    let qp := l_sub q (l_scale (ndot A q k) k) in
    g_subproblem0 (l_div pp (l_norm pp)) (l_div qp (l_norm qp)) k.

(** general_robotics_toolbox.py:778-819 [subproblem3] *)
Definition g_subproblem3 (p q k : list num) (d : num) : out (list num) :=
  let pp := l_sub p (l_scale (ndot A p k) k) in
  let qp := l_sub q (l_scale (ndot A q k) k) in
  let s := ndot A k (l_add p q) in
  let dpsq := d * d - s * s in
  let bb := nneg A (ndot A pp pp + ndot A qp qp - dpsq) / (nlit A 2 1 * l_norm pp * l_norm qp) in
  if (nlt A dpsq nzero || nlt A none1 (nabs A bb))%bool then Ok []
  else
    let* theta := g_subproblem1 (l_div pp (l_norm pp)) (l_div qp (l_norm qp)) k in
    let phi := nacos A bb in
    if nlt A nzero (nabs A phi) then Ok [theta + phi; theta - phi] else Ok [theta].

(** general_robotics_toolbox.py:302-331 [slerp] *)
Definition g_slerp (q0 q1 : list num) (t : num) : out (list num) :=
  let* _ := assert_ (nle A nzero t && nle A t none1)%bool in
  let q0 := l_div q0 (l_norm q0) in
  let q1 := l_div q1 (l_norm q1) in
  let q0 := if nlt A (ndot A q0 q1) nzero then l_neg q0 else q0 in
  let theta := nacos A (ndot A q0 q1) in
  if nlt A (nabs A theta) (nlit A 1 1000000) then Ok q0
  else
    let q := l_div (l_add (l_scale (nsin A ((none1 - t) * theta)) q0) (l_scale (nsin A (t * theta)) q1)) (nsin A theta) in
    Ok (l_div q (l_norm q)).

(** general_robotics_toolbox_invkin.py:348-376 for a robot with one revolute joint: the
    whole-turn alternatives of one angle. A quotient that is no number counts as no turn here; that lines 360 and 368 can then
    raise ValueError is modelled by [ModelFloat14.g_stuck]. *)
Definition g_equiv1 (lower upper theta : num) : list num :=
  let tp := nlit A 2 1 * npi A in
  let turns x := match nfloor A x tp with Some n => Z.to_nat n | None => O end in
  map (fun j => theta + tp * nofZ A (Z.of_nat j + 1)) (seq 0 (turns (upper - theta))) ++
  map (fun j => theta - tp * nofZ A (Z.of_nat j + 1)) (seq 0 (turns (theta - lower))).
End Generic.

(* ---- vectors and matrices of three entries ---- *)
Record v3 (T : Type) := W3 { w0 : T; w1 : T; w2 : T }.
Arguments W3 {T}. Arguments w0 {T}. Arguments w1 {T}. Arguments w2 {T}.
Definition v3map {S T} (f : S -> T) (a : v3 S) : v3 T := W3 (f (w0 a)) (f (w1 a)) (f (w2 a)).
Definition v3zip {S T U} (f : S -> T -> U) (a : v3 S) (b : v3 T) : v3 U := W3 (f (w0 a) (w0 b)) (f (w1 a) (w1 b)) (f (w2 a) (w2 b)).
(** a matrix is the vector of its rows *)
Notation m3 T := (v3 (v3 T)).
Definition v3cols {T} (M : m3 T) : m3 T := W3 (v3map w0 M) (v3map w1 M) (v3map w2 M).

Section Kinematics.
Context (A : arith).
Notation num := (num A).
(** every entry of a product is a dot product *)
Definition g_dot3 (a b : v3 num) : num := ndot A [w0 a; w1 a; w2 a] [w0 b; w1 b; w2 b].
Definition g_mv (M : m3 num) (x : v3 num) : v3 num := v3map (fun r => g_dot3 r x) M.
Definition g_mm (M N : m3 num) : m3 num := v3map (fun r => v3map (g_dot3 r) (v3cols N)) M.
Definition g_vadd : v3 num -> v3 num -> v3 num := v3zip (nadd A).
Definition g_I3 : m3 num :=
  W3 (W3 (none1 A) (nzero A) (nzero A)) (W3 (nzero A) (none1 A) (nzero A)) (W3 (nzero A) (nzero A) (none1 A)).

(** general_robotics_toolbox.py:37-58 [hat] *)
Definition g_hat (k : v3 num) : m3 num :=
  W3 (W3 (nzero A) (nneg A (w2 k)) (w1 k)) (W3 (w2 k) (nzero A) (nneg A (w0 k))) (W3 (nneg A (w1 k)) (w0 k) (nzero A)).
(** general_robotics_toolbox.py:64-82 [rot] *)
Definition g_rot (k : v3 num) (theta : num) : m3 num :=
  let khat := g_hat k in
  let khat2 := g_mm khat khat in
  let s := nsin A theta in
  let c := nsub A (none1 A) (ncos A theta) in
  v3zip (v3zip (fun x y => nadd A x (nmul A c y)))
        (v3zip (v3zip (fun i x => nadd A i (nmul A s x))) g_I3 khat) khat2.

(** general_robotics_toolbox.py:60-61 [invhat] *)
Definition g_invhat (K : m3 num) : v3 num :=
  v3map (fun x => ndiv A x (nlit A 2 1))
    (W3 (nadd A (nneg A (w2 (w1 K))) (w1 (w2 K))) (nsub A (w2 (w0 K)) (w0 (w2 K))) (nadd A (nneg A (w1 (w0 K))) (w0 (w1 K)))).
(** [np.sign] (NaN for NaN) *)
Definition g_sign (x : num) : num :=
  if nlt A x (nzero A) then nneg A (none1 A) else if nlt A (nzero A) x then none1 A else nmul A (nzero A) x.
(** general_robotics_toolbox.py:84-123 [R2rot]; the axis [0,0,1] and the angle 0 of line 112
    are given as floats *)
Definition g_R2rot (M : m3 num) : v3 num * num :=
  let R1 := v3zip (v3zip (nsub A)) M (v3cols M) in
  let entries := [w0 (w0 R1); w1 (w0 R1); w2 (w0 R1); w0 (w1 R1); w1 (w1 R1); w2 (w1 R1); w0 (w2 R1); w1 (w2 R1); w2 (w2 R1)] in
  let sin_theta := ndiv A (l_norm A entries) (nsqrt A (nlit A 8 1)) in
  let cos_theta := ndiv A (nsub A (nadd A (nadd A (w0 (w0 M)) (w1 (w1 M))) (w2 (w2 M))) (none1 A)) (nlit A 2 1) in
  let theta := natan2 A sin_theta cos_theta in
  if nlt A sin_theta (nlit A 1 1000000) then
    if nlt A (nzero A) cos_theta then (W3 (nzero A) (nzero A) (none1 A), nzero A)
    else
      let B := v3zip (v3zip (fun x i => nmul A (ndiv A (none1 A) (nlit A 2 1)) (nadd A x i))) M g_I3 in
      let k0 := nsqrt A (w0 (w0 B)) in
      let k1 := nsqrt A (w1 (w1 B)) in
      let k2 := nsqrt A (w2 (w2 B)) in
      if nlt A (nlit A 1 1000000) (nabs A k0) then
        (W3 k0 (nmul A k1 (g_sign (ndiv A (w1 (w0 B)) k0))) (nmul A k2 (g_sign (ndiv A (w2 (w0 B)) k0))), npi A)
      else if nlt A (nlit A 1 1000000) (nabs A k1) then
        (W3 k0 k1 (nmul A k2 (g_sign (ndiv A (w2 (w0 B)) k1))), npi A)
      else (W3 k0 k1 k2, npi A)
  else
    let s2 := nmul A (nlit A 2 1) sin_theta in
    (v3map (fun x => ndiv A x s2) (g_invhat R1), theta).

(** a Transform without its frame names *)
Record gtf := GT { gR : m3 num; gp : v3 num }.
(** general_robotics_toolbox.py:486-489 [Transform.__mul__] *)
Definition g_tmul (a b : gtf) : gtf := GT (g_mm (gR a) (gR b)) (g_vadd (gp a) (g_mv (gR a) (gp b))).

(** the attributes of a Robot that fwdkin reads *)
Record grobot := GRb {
  grH : list (v3 num); grP : list (v3 num); grtype : list jtype;
  grlower : option (list num); grupper : option (list num);
  grtool : option gtf; grflange : option gtf; grbase : option gtf }.

(** general_robotics_toolbox.py:858-878 [apply_robot_aux_transforms] *)
Definition g_apply_aux (r : grobot) (T : gtf) : gtf :=
  let T1 := match grflange r with Some F => g_tmul T F | None => T end in
  let T2 := match grtool r with Some W => g_tmul T1 W | None => T1 end in
  match grbase r with Some B => g_tmul B T2 | None => T2 end.

(** general_robotics_toolbox.py:543-547 with numpy broadcasting, see [ModelKin.all2] *)
Definition g_all (f : num -> num -> bool) (a b : list num) : out bool :=
  if Nat.eqb (length a) (length b) then Ok (forallb (fun p => f (fst p) (snd p)) (combine a b))
  else match a, b with
       | [x], _ => Ok (forallb (fun y => f x y) b)
       | _, [y] => Ok (forallb (fun x => f x y) a)
       | _, _ => Err ValueError
       end.
Definition g_check_limits (r : grobot) (theta : list num) (ignore : bool) : out unit :=
  if ignore then Ok tt
  else match grlower r, grupper r with
       | Some l, Some u =>
           let* a := g_all (fun t b => nle A b t) theta l in
           let* _ := assert_ a in
           let* b := g_all (fun t b => nle A t b) theta u in
           assert_ b
       | _, _ => Ok tt
       end.

(** general_robotics_toolbox.py:549-556, one pass of the loop and the loop *)
Definition g_fk_step (ty : jtype) (h pnext : v3 num) (t : num) (T : gtf) : gtf :=
  match ty with
  | Rotary | Mobile2 =>
      let R' := g_mm (gR T) (g_rot h t) in GT R' (g_vadd (gp T) (g_mv R' pnext))
  | Prismatic | Mobile3 =>
      let p' := g_vadd (gp T) (v3map (nmul A t) (g_mv (gR T) h)) in GT (gR T) (g_vadd p' (g_mv (gR T) pnext))
  end.
Fixpoint g_fk_loop (ty : list jtype) (H P : list (v3 num)) (theta : list num) (T : gtf) : out gtf :=
  match ty with
  | [] => Ok T
  | j :: ty' =>
      match H, P, theta with
      | h :: H', pn :: P', t :: theta' => g_fk_loop ty' H' P' theta' (g_fk_step j h pn t T)
      | _, _, _ => Err IndexError
      end
  end.
(** general_robotics_toolbox.py:530-560 [fwdkin] *)
Definition g_fwdkin (r : grobot) (theta : list num) (ignore : bool) : out gtf :=
  let* _ := g_check_limits r theta ignore in
  match grP r with
  | [] => Err IndexError
  | p0 :: P => let* T := g_fk_loop (grtype r) (grH r) P theta (GT g_I3 p0) in Ok (g_apply_aux r T)
  end.
End Kinematics.
Arguments GT {A}. Arguments gR {A}. Arguments gp {A}.
Arguments grH {A}. Arguments grP {A}. Arguments grtype {A}. Arguments grlower {A}. Arguments grupper {A}.
Arguments grtool {A}. Arguments grflange {A}. Arguments grbase {A}.

(* ---- the reals ---- *)
Open Scope R_scope.
Definition dot_R (a b : list R) : R := fold_right (fun p s => fst p * snd p + s) 0 (combine a b).
Definition real_arith : arith :=
  Arith R (fun a b => IZR a / IZR b) PI IZR Rplus Rminus Rmult Rdiv Ropp Rabs sqrt sin cos acos atan2
        Rltb Rleb (fun x y => Some (floor_div x y)) dot_R.
Close Scope R_scope.

(* ---- binary64 ---- *)
#[global] Instance prec64 : Prec_gt_0 53 := eq_refl.
#[global] Instance emax64 : Prec_lt_emax 53 1024 := eq_refl.
Definition b64 := binary_float 53 1024.
Definition b_ofZ (n : Z) : b64 := binary_normalize 53 1024 prec64 emax64 mode_NE n 0 false.
Definition b_add : b64 -> b64 -> b64 := Bplus mode_NE.
Definition b_sub : b64 -> b64 -> b64 := Bminus mode_NE.
Definition b_mul : b64 -> b64 -> b64 := Bmult mode_NE.
Definition b_div : b64 -> b64 -> b64 := Bdiv mode_NE.
Definition b_sqrt : b64 -> b64 := Bsqrt mode_NE.
Definition b_fma : b64 -> b64 -> b64 -> b64 := Bfma mode_NE.
Definition b_lt (x y : b64) : bool := match Bcompare x y with Some Lt => true | _ => false end.
Definition b_le (x y : b64) : bool := match Bcompare x y with Some Lt | Some Eq => true | _ => false end.
(** a literal: both integers below 2^53 are exact and the quotient is rounded once *)
Definition b_lit (a b : Z) : b64 := b_div (b_ofZ a) (b_ofZ b).
(** np.pi = 884279719003555 / 2^48 *)
Definition b_pi : b64 := binary_normalize 53 1024 prec64 emax64 mode_NE 884279719003555 (-48) false.
(** np.floor_divide: the floor of the exact quotient of two finite floats, y > 0.
    Simplification: for quotients beyond 2^53 numpy rounds the result to a float. *)
Definition b_floor (x y : b64) : option Z :=
  match x, y with
  | B754_zero _, B754_finite false _ _ _ => Some 0%Z
  | B754_finite s m e _, B754_finite false m' e' _ =>
      Some ((cond_Zopp s (Zpos m) * 2 ^ Z.max 0 (e - e')) / (Zpos m' * 2 ^ Z.max 0 (e' - e)))%Z
  | _, _ => None
  end.

(** Orders in which a dot product may be evaluated: from the left or from the right, with
    separate roundings or with fused multiply-add, and in two interleaved or adjacent pairs *)
Definition b_zero : b64 := B754_zero false.
Definition sum_seq (l : list (b64 * b64)) : b64 := fold_left (fun s p => b_add s (b_mul (fst p) (snd p))) l b_zero.
Definition sum_fma (l : list (b64 * b64)) : b64 := fold_left (fun s p => b_fma (fst p) (snd p) s) l b_zero.
Definition sum_pairs (l : list (b64 * b64)) : b64 :=
  match l with
  | [a; b; c; d] => b_add (sum_seq [a; b]) (sum_seq [c; d])
  | _ => sum_seq l
  end.
Definition sum_lanes (l : list (b64 * b64)) : b64 :=
  match l with
  | [a; b; c; d] => b_add (sum_seq [a; c]) (sum_seq [b; d])
  | _ => sum_seq l
  end.
Definition b_dots : list (list b64 -> list b64 -> b64) :=
  [fun a b => sum_seq (combine a b); fun a b => sum_fma (combine a b);
   fun a b => sum_seq (rev (combine a b)); fun a b => sum_fma (rev (combine a b));
   fun a b => sum_pairs (combine a b); fun a b => sum_lanes (combine a b)].

(** The library functions that IEEE 754 does not fix. *)
Record libm := Libm { m_sin : b64 -> b64; m_cos : b64 -> b64; m_acos : b64 -> b64; m_atan2 : b64 -> b64 -> b64 }.
Definition b64_arith (L : libm) (dot : list b64 -> list b64 -> b64) : arith :=
  Arith b64 b_lit b_pi b_ofZ b_add b_sub b_mul b_div Bopp Babs b_sqrt
        (m_sin L) (m_cos L) (m_acos L) (m_atan2 L) b_lt b_le b_floor dot.
