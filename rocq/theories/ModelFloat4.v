(** Quaternions over any arithmetic. *)
From Coq Require Import Reals ZArith List Bool.
From Verif Require Import LinAlg RealAux Py ModelRot ModelFloat.
Import ListNotations.

(** a quaternion as an array [q0, q1, q2, q3] *)
Record v4 (T : Type) := W4 { y0 : T; y1 : T; y2 : T; y3 : T }.
Arguments W4 {T}. Arguments y0 {T}. Arguments y1 {T}. Arguments y2 {T}. Arguments y3 {T}.

Section Quaternions.
Context (A : arith).
Notation num := (num A).
Local Notation "a + b" := (nadd A a b).
Local Notation "a - b" := (nsub A a b).
Local Notation "a * b" := (nmul A a b).
Local Notation "a / b" := (ndiv A a b).
Local Notation one := (none1 A).
Local Notation two := (nlit A 2 1).

(** [math.sqrt], which raises ValueError on negative arguments *)
Definition g_math_sqrt (x : num) : out num := if nlt A x (nzero A) then Err ValueError else Ok (nsqrt A x).

(** general_robotics_toolbox.py:161-199 [R2q]; [np.trace] adds from the left *)
Definition g_R2q (M : m3 num) : out (v4 num) :=
  let r00 := w0 (w0 M) in let r01 := w1 (w0 M) in let r02 := w2 (w0 M) in
  let r10 := w0 (w1 M) in let r11 := w1 (w1 M) in let r12 := w2 (w1 M) in
  let r20 := w0 (w2 M) in let r21 := w1 (w2 M) in let r22 := w2 (w2 M) in
  let quarter := nlit A 1 4 in
  let tr := r00 + r11 + r22 in
  if nlt A (nzero A) tr then
    let* r := g_math_sqrt (tr + one) in
    let S := two * r in
    Ok (W4 (quarter * S) ((r21 - r12) / S) ((r02 - r20) / S) ((r10 - r01) / S))
  else if (nlt A r11 r00 && nlt A r22 r00)%bool then
    let* r := g_math_sqrt (one + r00 - r11 - r22) in
    let S := two * r in
    Ok (W4 ((r21 - r12) / S) (quarter * S) ((r01 + r10) / S) ((r02 + r20) / S))
  else if nlt A r22 r11 then
    let* r := g_math_sqrt (one - r00 + r11 - r22) in
    let S := two * r in
    Ok (W4 ((r02 - r20) / S) ((r01 + r10) / S) (quarter * S) ((r12 + r21) / S))
  else
    let* r := g_math_sqrt (one - r00 - r11 + r22) in
    let S := two * r in
    Ok (W4 ((r10 - r01) / S) ((r02 + r20) / S) ((r12 + r21) / S) (quarter * S)).

(** general_robotics_toolbox.py:145-159 [q2R] *)
Definition g_q2R (q : v4 num) : m3 num :=
  let qhat := g_hat A (W3 (y1 q) (y2 q) (y3 q)) in
  let qhat2 := g_mm A qhat qhat in
  let s := two * y0 q in
  v3zip (v3zip (fun x y => x + two * y)) (v3zip (v3zip (fun i x => i + s * x)) (g_I3 A) qhat) qhat2.

(** general_robotics_toolbox.py:216-229 [rot2q] on a numpy axis *)
Definition g_rot2q (k : v3 num) (theta : num) : v4 num :=
  let s := nsin A (theta / two) in
  W4 (ncos A (theta / two)) (w0 k * s) (w1 k * s) (w2 k * s).

(** general_robotics_toolbox.py:231-244 [quatcomplement] *)
Definition g_quatcomplement (q : v4 num) : v4 num :=
  let m := nneg A one in W4 (y0 q) (m * y1 q) (m * y2 q) (m * y3 q).

(** general_robotics_toolbox.py:247-268 [quatproduct]: rows of the 4x4 matrix *)
Definition g_quatproduct (q : v4 num) : v4 (v4 num) :=
  let qv := W3 (y1 q) (y2 q) (y3 q) in
  let B := v3zip (v3zip (fun i x => y0 q * i + x)) (g_I3 A) (g_hat A qv) in
  let row x r := W4 x (w0 r) (w1 r) (w2 r) in
  W4 (W4 (y0 q) (nneg A (y1 q)) (nneg A (y2 q)) (nneg A (y3 q)))
     (row (y1 q) (w0 B)) (row (y2 q) (w1 B)) (row (y3 q) (w2 B)).
(** [np.dot(Q, p)] for a 4x4 matrix *)
Definition g_mv4 (Q : v4 (v4 num)) (p : v4 num) : v4 num :=
  let d r := ndot A [y0 r; y1 r; y2 r; y3 r] [y0 p; y1 p; y2 p; y3 p] in
  W4 (d (y0 Q)) (d (y1 Q)) (d (y2 Q)) (d (y3 Q)).
End Quaternions.
