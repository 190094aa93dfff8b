(** Property C44: quaternions, rotation matrices and Cardan angles. *)
From Coq Require Import Reals Lra Lia Nsatz.
From Verif Require Import Geo_Model Geo_Spec Geo_Proofs Geo_Proofs2.
Open Scope R_scope.

(** Every quaternion built from four numbers, not all zero, has norm 1, and is
    proportional (with a positive factor) to the four numbers. *)
Theorem C44_unit a b c d : a * a + b * b + c * c + d * d <> 0 ->
  unitq (quat_of a b c d) /\ exists k, 0 < k /\ quat_of a b c d = Q4 (k * a) (k * b) (k * c) (k * d).
Proof.
  intros H. assert (P : 0 < a * a + b * b + c * c + d * d) by nra. pose proof (sqrt_lt_R0 _ P) as S. unfold quat_of, unitq. cbn [qw qx qy qz].
  assert (S2 : sqrt (a * a + b * b + c * c + d * d) * sqrt (a * a + b * b + c * c + d * d) = a * a + b * b + c * c + d * d) by (apply sqrt_def; lra).
  set (n := sqrt _) in *. clearbody n. split.
  - transitivity ((a * a + b * b + c * c + d * d) / (n * n)); [field; lra|rewrite S2; field; lra].
  - exists (/ n). split; [apply Rinv_0_lt_compat, S|]. unfold Rdiv. f_equal; ring.
Qed.
Print Assumptions C44_unit.

(** rot_mat() of a unit quaternion is a rotation matrix (orthonormal, determinant 1). *)
Theorem C44_rot_mat q : unitq q -> rotation (rot_mat q).
Proof. apply rot_mat_rotation. Qed.
Print Assumptions C44_rot_mat.

(** rotate() applies the matrix rot_mat(). *)
Theorem C44_rotate q x : rotate q x = mulmv (rot_mat q) x.
Proof. destruct q, x. unfold rotate, mulmv, rot_mat, vadd, vsub, vscale, cross. cbn. f_equal; ring. Qed.
Print Assumptions C44_rotate.

(** rotate() with q = (cos(a/2), sin(a/2) u) is the rotation of angle a around u. *)
Theorem C44_axis_angle a u x : dot3 u u = 1 ->
  rotate (Q4 (cos (a / 2)) (sin (a / 2) * v0 u) (sin (a / 2) * v1 u) (sin (a / 2) * v2 u)) x = rodrigues a u x.
Proof.
  intros U. destruct u as [p q r], x as [x y z]. unfold dot3 in U. cbn in U.
  assert (C : cos a = cos (a / 2) * cos (a / 2) - sin (a / 2) * sin (a / 2)) by (rewrite <- cos_plus; f_equal; lra).
  assert (S : sin a = 2 * sin (a / 2) * cos (a / 2)) by (rewrite <- sin_2a; f_equal; lra).
  pose proof (cs2 (a / 2)) as T. unfold rotate, rodrigues, vadd, vsub, vscale, cross, dot3. cbn. rewrite C, S.
  set (cc := cos (a / 2)) in *. set (s := sin (a / 2)) in *. clearbody cc s. clear C S. f_equal; nsatz.
Qed.
Print Assumptions C44_axis_angle.

(** rotate() preserves scalar products and lengths, and the orientation. *)
Theorem C44_isometry q x y : unitq q ->
  dot3 (rotate q x) (rotate q y) = dot3 x y /\ norm3 (rotate q x) = norm3 x /\ rotate q (cross x y) = cross (rotate q x) (rotate q y).
Proof.
  intros U.
  assert (D : forall x y, dot3 (rotate q x) (rotate q y) = dot3 x y).
  { clear x y. intros x y. destruct q as [w a b c], x as [x0 x1 x2], y as [y0 y1 y2]. unfold unitq in U. cbn in U. unfold rotate, vadd, vsub, vscale, cross, dot3. cbn. nsatz. }
  split; [apply D|]. split; [unfold norm3; now rewrite D|].
  destruct q as [w a b c], x as [x0 x1 x2], y as [y0 y1 y2]. unfold unitq in U. cbn in U. unfold rotate, vadd, vsub, vscale, cross. cbn. f_equal; nsatz.
Qed.
Print Assumptions C44_isometry.

(** inv() is a unit quaternion, its matrix is the transposed one, and it undoes the
    rotation, in both orders. *)
Theorem C44_inverse q : unitq q -> unitq (quat_inv q) /\ rot_mat (quat_inv q) = transp (rot_mat q) /\
  forall x, rotate (quat_inv q) (rotate q x) = x /\ rotate q (rotate (quat_inv q) x) = x.
Proof.
  destruct q as [w a b c]. unfold unitq. cbn. intros U. split; [nsatz|]. split; [unfold rot_mat, transp; cbn; f_equal; ring|].
  intros [x y z]. unfold rotate, vadd, vsub, vscale, cross, quat_inv. cbn. split; f_equal; nsatz.
Qed.
Print Assumptions C44_inverse.

(** The neutral quaternion does not move anything. *)
Theorem C44_identity x : unitq quat_id /\ rotate quat_id x = x /\ rot_mat quat_id = M3 1 0 0 0 1 0 0 0 1.
Proof.
  assert (E : quat_id = Q4 1 0 0 0).
  { unfold quat_id, quat_of. replace (1 * 1 + 0 * 0 + 0 * 0 + 0 * 0) with 1 by ring. rewrite sqrt_1. f_equal; field. }
  rewrite E. split; [unfold unitq; cbn; ring|]. destruct x. unfold rotate, vadd, vsub, vscale, cross, rot_mat. cbn. split; f_equal; ring.
Qed.
Print Assumptions C44_identity.

(** The constructor from a rotation matrix gives, in each of its four branches, a unit
    quaternion with that rotation matrix. *)
Theorem C44_from_matrix A : rotation A -> unitq (quat_of_mat A) /\ rot_mat (quat_of_mat A) = A.
Proof. apply quat_of_mat_ok. Qed.
Print Assumptions C44_from_matrix.

(** Two unit quaternions with the same matrix are equal or opposite: rebuilding a
    quaternion from its matrix gives it back, up to the sign. *)
Lemma same_mat p q : unitq p -> unitq q -> rot_mat p = rot_mat q -> p = q \/ p = Q4 (- qw q) (- qx q) (- qy q) (- qz q).
Proof.
  destruct p as [w x y z], q as [w' x' y' z']. unfold unitq, rot_mat. cbn. intros U V E.
  injection E as E1 E2 E3 E4 E5 E6 E7 E8 E9.
  assert (WW : w * w = w' * w') by lra. assert (XX : x * x = x' * x') by lra. assert (YY : y * y = y' * y') by lra. assert (ZZ : z * z = z' * z') by lra.
  assert (WX : w * x = w' * x') by lra. assert (WY : w * y = w' * y') by lra. assert (WZ : w * z = w' * z') by lra.
  assert (XY : x * y = x' * y') by lra. assert (XZ : x * z = x' * z') by lra. assert (YZ : y * z = y' * z') by lra.
  clear E1 E2 E3 E4 E5 E6 E7 E8 E9.
  assert (S : forall a b : R, a * a = b * b -> a = b \/ a = - b) by (intros a b H; destruct (Req_dec a b); [now left|right; apply Rmult_eq_reg_l with (a - b); [nra|lra]]).
  assert (L : forall a a' b b' : R, a <> 0 -> a * b = a' * b' -> a = a' -> b = b') by (intros a a' b b' N H ->; apply Rmult_eq_reg_l with a'; assumption).
  assert (L' : forall a a' b b' : R, a <> 0 -> a * b = a' * b' -> a = - a' -> b = - b') by (intros a a' b b' N H E; apply Rmult_eq_reg_l with a; [rewrite H, E; ring|assumption]).
  destruct (Req_dec w 0) as [W|W]; [destruct (Req_dec x 0) as [X|X]; [destruct (Req_dec y 0) as [Y|Y]|]|].
  - assert (Z : z <> 0) by (intros ->; subst; lra).
    assert (w' = 0) by nra. assert (x' = 0) by nra. assert (y' = 0) by nra. destruct (S z z' ZZ); [left|right]; f_equal; lra.
  - assert (w' = 0) by nra. assert (x' = 0) by nra.
    destruct (S y y' YY) as [E|E]; [left|right]; f_equal; try lra; [apply (L y y')|apply (L' y y')]; assumption.
  - assert (w' = 0) by nra.
    destruct (S x x' XX) as [E|E]; [left|right]; f_equal; try lra; try (apply (L x x'); assumption); apply (L' x x'); assumption.
  - destruct (S w w' WW) as [E|E]; [left|right]; f_equal; try lra; try (apply (L w w'); assumption); apply (L' w w'); assumption.
Qed.
Theorem C44_rebuild q : unitq q -> quat_of_mat (rot_mat q) = q \/ quat_of_mat (rot_mat q) = Q4 (- qw q) (- qx q) (- qy q) (- qz q).
Proof.
  intros U. destruct (quat_of_mat_ok (rot_mat q) (rot_mat_rotation q U)) as [U' E]. apply same_mat; assumption.
Qed.
Print Assumptions C44_rebuild.

(** The elementary matrices are rotations, compose by adding angles and have period 2 pi. *)
Theorem C44_elementary a b axe : rotation (rotmat_3d a axe) /\ mulmm (rotmat_3d a axe) (rotmat_3d b axe) = rotmat_3d (a + b) axe /\
  rotmat_3d (a + 2 * PI) axe = rotmat_3d a axe /\ rotmat_3d (- a) axe = transp (rotmat_3d a axe).
Proof.
  pose proof (cs2 a) as T.
  assert (C : cos (a + 2 * PI) = cos a) by (rewrite cos_plus, cos_2PI, sin_2PI; ring). assert (S : sin (a + 2 * PI) = sin a) by (rewrite sin_plus, cos_2PI, sin_2PI; ring).
  destruct axe as [|[|axe]]; unfold rotmat_3d, rotR1, rotR2, rotR3, mulmm, transp; cbn;
    rewrite ?C, ?S, ?cos_plus, ?sin_plus, ?cos_neg, ?sin_neg; (split; [apply rotation_intro; lra|split; [f_equal; ring|split; [reflexivity|f_equal; ring]]]).
Qed.
Print Assumptions C44_elementary.

(** Cardan angles: mat_rotation() is a rotation; the angles are recovered from the
    matrix whenever theta is strictly between -pi/2 and pi/2 and the others in (-pi, pi];
    conversely any rotation matrix off the gimbal lock is rebuilt from its angles. *)
Theorem C44_cardan p t s : rotation (mat_rotation (Card p t s)) /\
  (- PI < p <= PI -> - (PI / 2) < t < PI / 2 -> - PI < s <= PI -> cardan_of_mat (mat_rotation (Card p t s)) = Card p t s).
Proof.
  split; [|apply cardan_of_mat_rotation]. rewrite mat_rotation_eq. pose proof (cs2 p). pose proof (cs2 t). pose proof (cs2 s).
  set (cp := cos p) in *. set (sp := sin p) in *. set (ct := cos t) in *. set (st := sin t) in *. set (cs := cos s) in *. set (ss := sin s) in *.
  clearbody cp sp ct st cs ss. apply rotation_intro; nsatz.
Qed.
Print Assumptions C44_cardan.
Theorem C44_cardan_from_matrix A : rotation A -> -1 < m02 A < 1 ->
  mat_rotation (cardan_of_mat A) = A /\
  let c := cardan_of_mat A in - PI < phi c <= PI /\ - (PI / 2) < theta c < PI / 2 /\ - PI < psi c <= PI.
Proof.
  intros H Hs. split; [apply mat_of_cardan; assumption|]. unfold cardan_of_mat. cbn.
  pose proof (atan2_range (m12 A) (m22 A)). pose proof (atan2_range (m01 A) (m00 A)). pose proof (asin_bound_lt _ Hs). lra.
Qed.
Print Assumptions C44_cardan_from_matrix.

(** Finding: the constructor of Cardan from a quaternion uses the opposite convention:
    its matrix is the one of the inverse rotation. *)
Theorem C44_cardan_from_quaternion q : unitq q -> -1 < 2 * (qx q * qz q - qy q * qw q) < 1 ->
  mat_rotation (cardan_of_quat q) = rot_mat (quat_inv q).
Proof.
  intros U H. destruct (C44_inverse q U) as (U' & E & _).
  assert (F : cardan_of_quat q = cardan_of_mat (rot_mat (quat_inv q))).
  { destruct q as [w x y z]. unfold unitq in U. unfold cardan_of_quat, cardan_of_mat, rot_mat, quat_inv. cbn in *.
    f_equal; [| f_equal; f_equal; ring |]; apply (f_equal2 atan2); lra. }
  rewrite F. apply mat_of_cardan; [apply rot_mat_rotation, U'|]. destruct q as [w x y z]. unfold rot_mat, quat_inv. cbn in *. lra.
Qed.
Print Assumptions C44_cardan_from_quaternion.
Theorem C44_cardan_conventions_refuted : exists q, unitq q /\ mat_rotation (cardan_of_quat q) <> rot_mat q /\ mat_rotation (cardan_of_mat (rot_mat q)) = rot_mat q.
Proof.
  exists (Q4 (3/5) (4/5) 0 0). assert (U : unitq (Q4 (3/5) (4/5) 0 0)) by (unfold unitq; cbn; lra). split; [exact U|]. split.
  - rewrite C44_cardan_from_quaternion; [|exact U|cbn; lra]. unfold rot_mat, quat_inv. cbn. intros E. injection E. intros. lra.
  - apply C44_cardan_from_matrix; [apply C44_rot_mat, U|]. cbn. lra.
Qed.
Print Assumptions C44_cardan_conventions_refuted.
(** Finding: at the gimbal lock, the angles do not give the rotation back. *)
Theorem C44_gimbal_lock_refuted : exists A, rotation A /\ mat_rotation (cardan_of_mat A) <> A.
Proof.
  exists (M3 0 0 (-1) 1 0 0 0 (-1) 0). split; [apply rotation_intro; ring|]. unfold cardan_of_mat. cbn [m00 m01 m02 m12 m22].
  assert (Z : atan2 0 0 = 0) by (unfold atan2; destruct (Rlt_dec 0 0); [lra|reflexivity]).
  rewrite Z, mat_rotation_eq. intros E. apply (f_equal m11) in E. cbn in E. rewrite sin_0, cos_0 in E. lra.
Qed.
Print Assumptions C44_gimbal_lock_refuted.
(** Finding: mat(), documented as the rotation matrix in homogeneous coordinates, is
    one for no quaternion: neither [1 0; 0 R] nor [R 0; 0 1] whatever the rotation R,
    and it is not even orthogonal when the first element is not zero. *)
Theorem C44_mat_refuted q : unitq q ->
  ~ (qmat q 0%nat 0%nat = 1 /\ exists A, rotation A /\ forall i j, (i < 3)%nat -> (j < 3)%nat -> qmat q (S i) (S j) = el A i j) /\
  qmat q 3%nat 3%nat <> 1 /\
  (qw q <> 0 -> ~ (forall j, (j < 4)%nat ->
    qmat q 0%nat j * qmat q 0%nat j + qmat q 1%nat j * qmat q 1%nat j + qmat q 2%nat j * qmat q 2%nat j + qmat q 3%nat j * qmat q 3%nat j = 1)).
Proof.
  destruct q as [w x y z]. unfold unitq. cbn [qw qx qy qz]. intros U. split; [|split].
  - intros [H1 (A & RA & HA)]. cbn in H1. subst w. assert (x = 0 /\ y = 0 /\ z = 0) as (-> & -> & ->) by (repeat split; nra).
    apply rotation_eqs in RA. destruct A as [a b c d e f g h i]. destruct RA as (E & _).
    pose proof (HA 0%nat 0%nat ltac:(lia) ltac:(lia)) as H00. pose proof (HA 1%nat 0%nat ltac:(lia) ltac:(lia)) as H10. pose proof (HA 2%nat 0%nat ltac:(lia) ltac:(lia)) as H20.
    cbn in H00, H10, H20. subst a d g. lra.
  - cbn. lra.
  - intros W H. pose proof (H 1%nat ltac:(lia)) as H1. cbn in H1. apply W. nra.
Qed.
Print Assumptions C44_mat_refuted.

(** Non-vacuity: a rotation matrix for each branch of the constructor, a quaternion. *)
Example C44_ex_branches :
  rotation (M3 1 0 0 0 (-1) 0 0 0 (-1)) /\ quat_of_mat (M3 1 0 0 0 (-1) 0 0 0 (-1)) = Q4 0 1 0 0 /\
  rotation (M3 (-1) 0 0 0 1 0 0 0 (-1)) /\ quat_of_mat (M3 (-1) 0 0 0 1 0 0 0 (-1)) = Q4 0 0 1 0 /\
  rotation (M3 (-1) 0 0 0 (-1) 0 0 0 1) /\ quat_of_mat (M3 (-1) 0 0 0 (-1) 0 0 0 1) = Q4 0 0 0 1 /\
  rotation (M3 0 0 1 1 0 0 0 1 0) /\ quat_of_mat (M3 0 0 1 1 0 0 0 1 0) = Q4 0.5 0.5 0.5 0.5.
Proof.
  assert (S4 : sqrt (1 + 1 - -1 - -1) = 2) by (replace (1 + 1 - -1 - -1) with (2 * 2) by ring; apply sqrt_square; lra).
  assert (S4' : sqrt (1 - -1 + 1 - -1) = 2) by (replace (1 - -1 + 1 - -1) with (2 * 2) by ring; apply sqrt_square; lra).
  assert (S4'' : sqrt (1 - -1 - -1 + 1) = 2) by (replace (1 - -1 - -1 + 1) with (2 * 2) by ring; apply sqrt_square; lra).
  assert (S1 : sqrt (1 + 0 + 0 + 0) = 1) by (replace (1 + 0 + 0 + 0) with 1 by ring; apply sqrt_1).
  split; [apply rotation_intro; ring|]. split; [unfold quat_of_mat; cbn [m00 m01 m02 m10 m11 m12 m20 m21 m22]; destruct (Rlt_dec (-1) 0); [|lra]; destruct (Rlt_dec (-1) 1); [|lra]; cbv zeta; rewrite S4; f_equal; lra|].
  split; [apply rotation_intro; ring|]. split; [unfold quat_of_mat; cbn [m00 m01 m02 m10 m11 m12 m20 m21 m22]; destruct (Rlt_dec (-1) 0); [|lra]; destruct (Rlt_dec 1 (-1)); [lra|]; cbv zeta; rewrite S4'; f_equal; lra|].
  split; [apply rotation_intro; ring|]. split; [unfold quat_of_mat; cbn [m00 m01 m02 m10 m11 m12 m20 m21 m22]; destruct (Rlt_dec 1 0); [lra|]; destruct (Rlt_dec (-1) (- -1)); [|lra]; cbv zeta; rewrite S4''; f_equal; lra|].
  split; [apply rotation_intro; ring|]. unfold quat_of_mat; cbn [m00 m01 m02 m10 m11 m12 m20 m21 m22]; destruct (Rlt_dec 0 0); [lra|]; destruct (Rlt_dec 0 (- 0)); [lra|]; cbv zeta; rewrite S1; f_equal; lra.
Qed.
Example C44_ex_unit : unitq (Q4 (1/2) (-1/2) (1/2) (1/2)) /\ rotate (Q4 (1/2) (-1/2) (1/2) (1/2)) (V3 1 2 3) = V3 (-2) 3 (-1).
Proof. split; [unfold unitq; cbn; lra|]. unfold rotate, vadd, vsub, vscale, cross. cbn. f_equal; lra. Qed.
