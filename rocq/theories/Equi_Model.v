(** Amplitude response of linear-phase filters and equiripple design: filtrage/rif-eq.cc, reechan/hb.cc.
    Numbers are exact reals and complex numbers (rounding is not modelled). *)
From Coq Require Import List Arith ZArith Reals.
From Verif Require Import Base DftSys ComplexSys RField Filters_Model Fourier_Model Vec_Model Del_Model Polyphase_Model Fdt_Model.
Import ListNotations.
Local Open Scope R_scope.

(** rif-eq.cc:5-21 rifamp_impl (types 1 and 2: cosines; others: sines; type 1: middle tap) *)
Definition rifamp_impl (h : list R) (w : R) (type : nat) : res R :=
  let n := length h in
  let s := fold_left (fun s k => s + nth k h 0 * 2 *
      (if ((type =? 1) || (type =? 2))%nat%bool then cos (w * (1 / 2 * (INR n - 1) - INR k)) else sin (w * (1 / 2 * (INR n - 1) - INR k))))
    (seq 0 (n / 2)) 0 in
  if (type =? 1)%nat then let* c := vget h (n / 2) in Ok (s + c) else Ok s.
(** rif-eq.cc:24-34 riftype *)
Definition riftype (h : list R) : res nat :=
  let n := length h in
  let* a := vget h 0 in
  let* b := vgetZ h (Z.of_nat n - 1) in
  Ok (if Req_EM_T a b then (if Nat.even n then 2 else 1) else (if Nat.even n then 4 else 3))%nat.
Fixpoint mapr {A B} (f : A -> res B) (l : list A) : res (list B) :=
  match l with [] => Ok [] | a :: l' => let* b := f a in let* r := mapr f l' in Ok (b :: r) end.
(** rif-eq.cc:37-47 rifamp2 *)
Definition rifamp2 (h : list R) (fr : list R) : res (list R) :=
  let* type := riftype h in
  mapr (fun f => rifamp_impl h (f * 2 * PI) type) fr.
(** rif-eq.cc:49-57 rifamp_naif and 86-90 rifampn *)
Definition rifampn (h : list R) (L : nat) : res (list R * list R) :=
  let fr := linspace (K := Rfield) 0 (1 / 2 - (1 / 2) / INR L) L in
  let* type := riftype h in
  let* A := mapr (fun i => rifamp_impl h (INR i * PI / INR L) type) (seq 0 L) in
  Ok (fr, A).
(** rif-eq.cc:93-122 rifamp.  The vector is converted to complex numbers; polar(M * w) has unit modulus. *)
Definition rifamp (junk : C) (h : list R) (L : nat) (sym : bool) : res (list R * list R) :=
  let N := length h in
  let M := ((N - 1) / 2)%nat in
  let dim := Nat.max (2 * L) N in
  let h2 := map (fun v => (v, 0) : C) h ++ repeat ((0, 0) : C) (dim - N) in
  let* H := fft (F := Complex) junk h2 in
  let* H := seg H 0 (dim / 2) in
  let w := map (fun v => v * PI / INR (dim / 2)) (linspace (K := Rfield) 0 (INR (dim / 2) - 1) (dim / 2)) in
  let H := map (fun z => Cmul z (sqrt (INR dim), 0)) H in
  let H := map (fun p => Cmul (fst p) (cos (INR M * snd p), sin (INR M * snd p))) (combine H w) in
  let H := if sym then H else map (fun z => Cmul z (0, - 1)) H in
  if negb (length H =? L)%nat then Exc else
  Ok (linspace (K := Rfield) 0 (1 / 2 - (1 / 2) / INR L) L, map fst H).

(** ** Equiripple design by weighted least squares *)
Definition dot (r x : list R) : R := fold_right (fun p s => fst p * snd p + s) 0 (combine r x).
Definition matvec (A : list (list R)) (x : list R) : list R := map (fun r => dot r x) A.
Definition zipr (f : R -> R -> R) (a b : list R) : list R := map (fun p => f (fst p) (snd p)) (combine a b).
(** minCoeff, maxCoeff: 0 for an empty vector, tableau.cc:603-653 *)
Definition vmin (l : list R) : R := match l with [] => 0 | a :: l' => fold_left Rmin l' a end.
Definition vmax (l : list R) : R := match l with [] => 0 | a :: l' => fold_left Rmax l' a end.
Definition vsum (l : list R) : R := fold_right Rplus 0 l.
(** Tabf::diagonal(p).matprod(A) *)
Definition zipr_rows (p : list R) (A : list (list R)) : list (list R) :=
  map (fun q => map (fun v => fst q * v) (snd q)) (combine p A).
(** rif-eq.cc:129-192 lsi.  [lsq] is Tab::lsq (QR decomposition, tableau.cc:1549-1573).  The
    iterations: weights p and solution x.  A null largest error makes a division by zero (the
    weights, then the solution, are not numbers: UB).  The plots are not modelled. *)
Fixpoint lsi_loop (lsq : list (list R) -> list R -> list R) (A : list (list R)) (b w : list R) (fuel : nat) (p x : list R) : res (list R) :=
  match fuel with
  | O => Ok x
  | S fuel' =>
      let e := zipr Rminus (matvec A x) b in
      let Ea := zipr (fun e w => Rabs e * w) e w in
      let emax := vmax Ea in
      let emin := vmin Ea in
      if Req_EM_T emax 0 then UB else
      if Rlt_dec ((emax - emin) / emax) (1 / 100000) then Ok x else
      if Req_EM_T (emax - emin) 0 then UB else
      let p1 := zipr (fun p ea => p * (1 + (1 / 2) / (emax - emin) * (ea - emin))) p Ea in
      let p := map (fun v => v / vsum p1) p1 in
      let Ai := zipr_rows p A in
      let bi := zipr Rmult b p in
      lsi_loop lsq A b w fuel' p (lsq Ai bi)
  end.
Definition lsi (lsq : list (list R) -> list R -> list R) (A : list (list R)) (b w : list R) : res (list R) :=
  let n := length A in
  if negb (n =? length b)%nat then Exc else
  let x := lsq A b in
  if negb (n =? length w)%nat then Exc else
  lsi_loop lsq A b w 100 (repeat 1 n) x.
(** rif-eq.cc:198-240 design_rif_eq: row i of the matrix is the frequency i / (2 n), column k the tap k. *)
Definition eq_matrix (nc n : nat) : list (list R) :=
  let m := ((nc + 1) / 2)%nat in
  map (fun i => let W := INR i * PI / INR n in
    map (fun k => if ((k =? m - 1)%nat && Nat.odd nc)%bool then 1 else 2 * cos (W * (INR k - (INR nc - 1) / 2))) (seq 0 m)) (seq 0 n).
Definition design_rif_eq (lsq : list (list R) -> list R -> list R) (nc : nat) (D W : list R) : res (list R) :=
  let n := length D in
  if negb (length W =? n)%nat then Exc else
  let* x := lsi lsq (eq_matrix nc n) D W in
  let h := repeat 0 nc in
  let* a := hd_get x (nc / 2) in
  let* h := hd_set h (nc / 2) a in
  let* h := tl_set h (nc / 2) (rev a) in
  if Nat.odd nc then let* c := vget x (nc / 2) in vset h (nc / 2) c else Ok h.

(** rif-eq.cc:242-271: target and weights given by a list of bands (fb, fh, atten, poids); grid of
    l = 16 nc frequencies.  A segment of negative length is not seen by the range check (UB). *)
Record band := { b_fb : R; b_fh : R; b_att : R; b_w : R }.
Definition set_segZ (x : list R) (i n : Z) (v : Z -> R) : res (list R) :=
  if (n <? 0)%Z then UB else if (i <? 0)%Z then UB else
  set_seg x (Z.to_nat i) (map (fun k => v (Z.of_nat k)) (seq 0 (Z.to_nat n))).
Definition eps : R := / 10 ^ 10.
Fixpoint eq_bands (l : nat) (spec : list band) (DW : list R * list R) : res (list R * list R) :=
  match spec with
  | [] => Ok DW
  | s :: rest =>
      let '(D, W) := DW in
      let L := Z.of_nat l in
      let ib := Z.min (roundZ (2 * b_fb s * INR l)) (L - 1) in
      let ih := Z.min (roundZ (2 * b_fh s * INR l)) (L - 1) in
      let* D := set_segZ D ib (ih - ib + 1) (fun _ => b_att s) in
      let* W := set_segZ W ib (ih - ib + 1) (fun _ => b_w s + eps) in
      match rest with
      | [] => Ok (D, W)
      | s' :: _ =>
          let ib2 := roundZ (2 * b_fb s' * INR l) in
          let cnt := (ib2 - ih + 1)%Z in
          let* D := set_segZ D ih cnt (fun k => nth (Z.to_nat k) (linspace (K := Rfield) (b_att s) (b_att s') (Z.to_nat cnt)) 0) in
          eq_bands l rest (D, W)
      end
  end.
Definition eq_target (nc : nat) (spec : list band) : res (list R * list R) :=
  eq_bands (16 * nc) spec (repeat 1 (16 * nc), repeat eps (16 * nc)).
Definition design_rif_eq_spec lsq (nc : nat) (spec : list band) : res (list R) :=
  let* DW := eq_target nc spec in
  design_rif_eq lsq nc (fst DW) (snd DW).

(** reechan/hb.cc:6-77 design_rif_demi_bande, for n >= 3 (for n = 1 the code builds vectors of negative size; the taps are placed by design_hb, Polyphase_Model.v).
    ceil(v) = - Int_part(- v). *)
Definition ceilZ (r : R) : Z := (- Int_part (- r))%Z.
Definition design_demi_bande lsq (n : nat) (fc : R) : res (list R) :=
  if Nat.even n then Exc else
  let m := ((n - 1) / 2)%nat in
  let m' := if Nat.odd m then m else (m - 1)%nat in
  let L := (16 * m')%nat in
  let idp := Z.max 0 (Z.min (ceilZ (2 * fc * INR L / (1 / 2))) (Z.of_nat L - 2)) in
  let* W := set_segZ (repeat 1 L) idp (Z.of_nat L - idp) (fun _ => 0) in
  let* g := design_rif_eq lsq (m' + 1) (repeat 1 L) W in
  design_hb (K := Rring) (1 / 2) (fun _ => g) n.
