(** Model of core/src/geometrie.cc and core/include/tsd/geometrie.hpp over the real
    numbers (exact arithmetic instead of float). *)
From Coq Require Import Reals.
Open Scope R_scope.

(** Eigen::Vector3f, Eigen::Matrix3f (m_ij = R(i,j)), the four elements of a Quaternion *)
Record vec3 := V3 { v0 : R; v1 : R; v2 : R }.
Record mat3 := M3 { m00 : R; m01 : R; m02 : R; m10 : R; m11 : R; m12 : R; m20 : R; m21 : R; m22 : R }.
Record quat := Q4 { qw : R; qx : R; qy : R; qz : R }.
(** Eigen::Matrix4f, given by its elements *)
Definition mat4 := nat -> nat -> R.

(** Eigen products *)
Definition mulmv (A : mat3) (x : vec3) : vec3 :=
  V3 (m00 A * v0 x + m01 A * v1 x + m02 A * v2 x) (m10 A * v0 x + m11 A * v1 x + m12 A * v2 x) (m20 A * v0 x + m21 A * v1 x + m22 A * v2 x).
Definition mulmm (A B : mat3) : mat3 :=
  M3 (m00 A * m00 B + m01 A * m10 B + m02 A * m20 B) (m00 A * m01 B + m01 A * m11 B + m02 A * m21 B) (m00 A * m02 B + m01 A * m12 B + m02 A * m22 B)
     (m10 A * m00 B + m11 A * m10 B + m12 A * m20 B) (m10 A * m01 B + m11 A * m11 B + m12 A * m21 B) (m10 A * m02 B + m11 A * m12 B + m12 A * m22 B)
     (m20 A * m00 B + m21 A * m10 B + m22 A * m20 B) (m20 A * m01 B + m21 A * m11 B + m22 A * m21 B) (m20 A * m02 B + m21 A * m12 B + m22 A * m22 B).
Definition vadd (a b : vec3) : vec3 := V3 (v0 a + v0 b) (v1 a + v1 b) (v2 a + v2 b).
Definition vsub (a b : vec3) : vec3 := V3 (v0 a - v0 b) (v1 a - v1 b) (v2 a - v2 b).
Definition vscale (k : R) (a : vec3) : vec3 := V3 (k * v0 a) (k * v1 a) (k * v2 a).

(** geometrie.cc:33-49 makeC *)
Definition makeC (v : vec3) : mat3 := M3 0 (- v2 v) (v1 v) (v2 v) 0 (- v0 v) (- v1 v) (v0 v) 0.
(** geometrie.cc:54-65 rot_mat *)
Definition rot_mat (q : quat) : mat3 :=
  let w := qw q in let x := qx q in let y := qy q in let z := qz q in
  M3 (1 - 2 * (y * y + z * z)) (2 * (x * y - z * w)) (2 * (x * z + y * w))
     (2 * (x * y + z * w)) (1 - 2 * (z * z + x * x)) (2 * (y * z - x * w))
     (2 * (x * z - y * w)) (2 * (y * z + x * w)) (1 - 2 * (y * y + x * x)).
(** geometrie.cc:67-73 cross *)
Definition cross (a b : vec3) : vec3 :=
  V3 (v1 a * v2 b - v2 a * v1 b) (v2 a * v0 b - v0 a * v2 b) (v0 a * v1 b - v1 a * v0 b).
(** geometrie.cc:77-83 rotate *)
Definition rotate (q : quat) (x : vec3) : vec3 :=
  let e := V3 (- qx q) (- qy q) (- qz q) in
  let s := qw q in
  vadd x (cross (vscale 2 e) (vsub (cross e x) (vscale s x))).
(** geometrie.cc:85-95 mat *)
Definition qmat (q : quat) : mat4 := fun i j =>
  match i, j with
  | O, O => qw q
  | O, S O => - qx q | O, S (S O) => - qy q | O, S (S (S O)) => - qz q
  | S O, O => qx q | S (S O), O => qy q | S (S (S O)), O => qz q
  | S i', S j' =>
      let c := makeC (V3 (qx q) (qy q) (qz q)) in
      match i', j' with
      | O, O => m00 c | O, S O => m01 c | O, S (S O) => m02 c
      | S O, O => m10 c | S O, S O => m11 c | S O, S (S O) => m12 c
      | S (S O), O => m20 c | S (S O), S O => m21 c | S (S O), S (S O) => m22 c
      | _, _ => 0
      end
  | _, _ => 0
  end.
(** geometrie.cc:98-107 the two constructors from four elements *)
Definition quat_of (a b c d : R) : quat :=
  let n := sqrt (a * a + b * b + c * c + d * d) in Q4 (a / n) (b / n) (c / n) (d / n).
(** geometrie.cc:110-147 the constructor from a rotation matrix *)
Definition quat_of_mat (A : mat3) : quat :=
  let fin t a b c d := let k := 0.5 / sqrt t in Q4 (a * k) (b * k) (c * k) (d * k) in
  if Rlt_dec (m22 A) 0 then
    if Rlt_dec (m11 A) (m00 A) then
      let t := 1 + m00 A - m11 A - m22 A in fin t (m21 A - m12 A) t (m10 A + m01 A) (m20 A + m02 A)
    else
      let t := 1 - m00 A + m11 A - m22 A in fin t (m02 A - m20 A) (m01 A + m10 A) t (m12 A + m21 A)
  else
    if Rlt_dec (m00 A) (- m11 A) then
      let t := 1 - m00 A - m11 A + m22 A in fin t (m10 A - m01 A) (m20 A + m02 A) (m12 A + m21 A) t
    else
      let t := 1 + m00 A + m11 A + m22 A in fin t t (m21 A - m12 A) (m02 A - m20 A) (m10 A - m01 A).
(** geometrie.cc:150-153 identite *)
Definition quat_id : quat := quat_of 1 0 0 0.
(** geometrie.cc:156-162 inv *)
Definition quat_inv (q : quat) : quat := Q4 (qw q) (- qx q) (- qy q) (- qz q).

(** std::atan2 (without the signed zeros of IEEE; atan2(0, 0) = 0) *)
Definition atan2 (y x : R) : R :=
  if Rlt_dec 0 x then atan (y / x)
  else if Rlt_dec x 0 then (if Rle_dec 0 y then atan (y / x) + PI else atan (y / x) - PI)
  else if Rlt_dec 0 y then PI / 2 else if Rlt_dec y 0 then - (PI / 2) else 0.

(** geometrie.hpp:119-160 rotmat_3d_R1, R2, R3 *)
Definition rotR1 (a : R) : mat3 := M3 1 0 0 0 (cos a) (sin a) 0 (- sin a) (cos a).
Definition rotR2 (a : R) : mat3 := M3 (cos a) 0 (- sin a) 0 1 0 (sin a) 0 (cos a).
Definition rotR3 (a : R) : mat3 := M3 (cos a) (sin a) 0 (- sin a) (cos a) 0 0 0 1.
(** geometrie.hpp:162-172 rotmat_3d *)
Definition rotmat_3d (a : R) (axe : nat) : mat3 :=
  match axe with O => rotR1 a | S O => rotR2 a | _ => rotR3 a end.

(** geometrie.hpp:77-100 Cardan: angles (phi, theta, psi) *)
Record cardan := Card { phi : R; theta : R; psi : R }.
(** geometrie.cc:172-177 from a matrix *)
Definition cardan_of_mat (A : mat3) : cardan :=
  Card (atan2 (m12 A) (m22 A)) (- asin (m02 A)) (atan2 (m01 A) (m00 A)).
(** geometrie.cc:179-188 from a quaternion *)
Definition cardan_of_quat (q : quat) : cardan :=
  let a := qw q in let b := qx q in let c := qy q in let d := qz q in
  Card (atan2 (2 * c * d + 2 * a * b) (d * d - c * c - b * b + a * a))
       (- asin (2 * b * d - 2 * a * c))
       (atan2 (2 * b * c + 2 * a * d) (b * b + a * a - d * d - c * c)).
(** geometrie.cc:231-235 mat_rotation *)
Definition mat_rotation (c : cardan) : mat3 := mulmm (mulmm (rotR1 (phi c)) (rotR2 (theta c))) (rotR3 (psi c)).
