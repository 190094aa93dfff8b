(** C28, C29: theorems. *)
From Coq Require Import Reals QArith_base Qcanon. Close Scope Q_scope. Close Scope Qc_scope.
From Verif Require Import Base BaseLemmas RField Fields Filters_Model Filters_Spec Polyphase_Model HadGo_Model HadGo_Spec HadGo_Proofs HadGo_Proofs2 HadGo_Proofs3.
Local Open Scope nat_scope.

(** ** C28 *)
Theorem C28_fwht : forall (K : cfield) (x : list K) k, cnat (K := K) 2 <> c0 -> length x = 2 ^ k ->
  exists y, fwht x = Ok y /\ length y = length x /\
  forall i, i < length x -> samp y i = fdiv (sum (length x) (fun j => cmul (had k i j) (samp x j))) (cnat (length x)).
Proof. intros K x k Hc H. exact (fwht_ok K Hc x k H). Qed.
Print Assumptions C28_fwht.
Theorem C28_twice : forall (K : cfield) (x : list K) k, cnat (K := K) 2 <> c0 -> length x = 2 ^ k ->
  exists y z, fwht x = Ok y /\ fwht y = Ok z /\ length z = length x /\
  forall i, i < length x -> samp z i = fdiv (samp x i) (cnat (length x)).
Proof. intros K x k Hc H. exact (fwht_twice K Hc x k H). Qed.
Print Assumptions C28_twice.
(** The recursive matrix constructor gives the Hadamard matrix (column-major storage). *)
Theorem C28_matrix : forall (K : cring) k fuel, k < fuel ->
  exists d, hadamard (K := K) fuel (2 ^ k) = Ok (mkmat (2 ^ k) (2 ^ k) d) /\ length d = 2 ^ k * 2 ^ k /\
    forall i j, i < 2 ^ k -> j < 2 ^ k -> nth (i + j * 2 ^ k) d c0 = had k i j.
Proof. intros K k fuel H. exact (hadamard_ok K k fuel H). Qed.
Print Assumptions C28_matrix.
(** Rows of that matrix are orthogonal. *)
Theorem C28_orthogonal : forall (K : cring) k i l, i < 2 ^ k -> l < 2 ^ k ->
  sum (2 ^ k) (fun j => cmul (had k i j) (had k j l)) = (if i =? l then cnat (2 ^ k) else c0) :> K.
Proof. intros K k i l. apply had_ortho. Qed.
Print Assumptions C28_orthogonal.
(** Finding: the constructor never returns for size 0, for any fuel. *)
Theorem C28_matrix_zero_refuted : forall (K : cring) fuel, hadamard (K := K) fuel 0 = Diverge.
Proof. intros K fuel. induction fuel as [|f IH]; [reflexivity|]. cbn [hadamard Nat.eqb]. change (0 / 2) with 0. rewrite IH. reflexivity. Qed.
Print Assumptions C28_matrix_zero_refuted.
(** Finding: for a size which is not a power of two the matrix has a zero row. *)
Theorem C28_matrix_three_refuted :
  hadamard (K := Zring) 5 3 = Ok (mkmat 3 3 [1; 1; 0; 1; -1; 0; 0; 0; 0]%Z).
Proof. reflexivity. Qed.
Print Assumptions C28_matrix_three_refuted.
(** Finding: three samples make fwht access outside of the vector (caught: exception). *)
Theorem C28_three_refuted : forall (K : cfield) (a b c : K), fwht [a; b; c] = Exc.
Proof. intros. reflexivity. Qed.
Print Assumptions C28_three_refuted.
Example C28_case : cnat (K := Qcfield) 2 <> c0 /\
  had (K := Zring) 2 3 3 = 1%Z /\ had (K := Zring) 2 1 3 = (-1)%Z /\
  outs (let* y := fwht (K := Qcfield) [qc 1 1; qc 2 1; qc 3 1; qc 6 1] in Ok (tt, y)) = Ok (map (fun v : Qc => this v) [qc 3 1; qc (-1) 1; qc (-3) 2; qc 1 2]).
Proof. split; [discriminate|]. split; [reflexivity|]. split; [reflexivity|]. vm_compute. reflexivity. Qed.

(** ** C29 *)
(** Offline: 2 |X(f)|^2 / (n * energy), X the discrete-time Fourier transform. *)
Theorem C29_offline : forall (f : R) (x : list R),
  goertzel (K := Rfield) (cos (2 * PI * f)) x =
  (2 * (sum (K := Rring) (length x) (fun i => samp (K := Rring) x i * cos (2 * PI * f * INR i)) ^ 2 +
        sum (K := Rring) (length x) (fun i => samp (K := Rring) x i * sin (2 * PI * f * INR i)) ^ 2) /
  (sum (K := Rring) (length x) (fun i => samp (K := Rring) x i ^ 2) * INR (length x)))%R.
Proof. intros f x. apply goertzel_ok. Qed.
Print Assumptions C29_offline.
Theorem C29_bounds : forall (f : R) (x : list R),
  sum (K := Rring) (length x) (fun i => samp (K := Rring) x i ^ 2)%R <> 0%R ->
  (0 <= goertzel (K := Rfield) (cos (2 * PI * f)) x <= 2)%R.
Proof. intros f x. apply goertzel_bound. Qed.
Print Assumptions C29_bounds.
(** Streaming: for every cutting of the input into blocks, one output per
    complete group of R samples, the offline value of that group. *)
Theorem C29_streaming : forall (K : cfield) (c : K) R (blocks : list (list K)), 0 < R -> cnat (K := K) R <> c0 ->
  exists s, run gz_step (gz_init c R) blocks = Ok (s, map (goertzel c) (packets R (concat blocks))).
Proof. intros K c R blocks. apply gz_run. Qed.
Print Assumptions C29_streaming.
Example C29_case : outs (run gz_step (gz_init (K := Qcfield) (qc 0 1) 4) [[qc 1 1; qc 0 1; qc (-1) 1]; []; [qc 0 1; qc 1 1; qc 1 1; qc 1 1; qc 1 1; qc 3 1]])
   = Ok (map (fun v : Qc => this v) [qc 1 1; qc 0 1]).
Proof. vm_compute. reflexivity. Qed.
