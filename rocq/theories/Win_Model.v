(** Model of core/src/fenetres.cc: the windows, over the reals (exact arithmetic).  Slepian windows (eigenvectors) are not modelled. *)
From Coq Require Import Reals ZArith String.
From Verif Require Import Base RField Vec_Model Ra_Model.
Local Open Scope R_scope.

(** fenetres.cc:17-58 fen_inter; integer divisions truncate *)
Definition fen_inter (n : nat) (sym : bool) : list R :=
  let z := Z.of_nat n in
  let tmin := IZR (Z.quot (- z) 2) in
  let tmax := if Nat.even n then (if sym then IZR (Z.quot z 2) else IZR (Z.quot (z - 1) 2))
              else (if sym then IZR (Z.quot z 2) else IZR (Z.quot z 2) - (INR n - 1) / INR n) in
  linspace (K := Rfield) (tmin / INR n) (tmax / INR n) n.

(** filtrage.hpp:117-125 *)
Inductive fenetre := AUCUNE | HANN | TRIANGLE | HAMMING | BLACKMAN | CHEBYCHEV.

(** fenetres.cc:123-126 Hamming_generalise *)
Definition hamming_gen (a : R) (n : nat) (sym : bool) : list R := map (fun t => a + (1 - a) * cos (2 * PI * t)) (fen_inter n sym).

(** fenetres.cc:128-147 Fenetre2string *)
Definition fenetre2string (f : fenetre) : string :=
  match f with AUCUNE => "re" | HANN => "hn" | TRIANGLE => "tr" | HAMMING => "hm" | BLACKMAN => "bm" | CHEBYCHEV => "ch" end.
(** fenetres.cc:178-206 parse_fenêtre: first match in the table; otherwise msg_erreur throws *)
Definition fen_table : list (string * fenetre) :=
  [(""%string, AUCUNE); ("aucune"%string, AUCUNE); ("none"%string, AUCUNE); ("re"%string, AUCUNE); ("hn"%string, HANN); ("hann"%string, HANN); ("tr"%string, TRIANGLE);
   ("hamming"%string, HAMMING); ("hm"%string, HAMMING); ("cheb"%string, CHEBYCHEV); ("ch"%string, CHEBYCHEV); ("bm"%string, BLACKMAN)].
Fixpoint assoc (l : list (string * fenetre)) (s : string) : res fenetre :=
  match l with [] => Exc | (k, v) :: t => if String.eqb k s then Ok v else assoc t s end.
Definition parse_fenetre (s : string) : res fenetre := assoc fen_table s.

(** ** Chebyshev window *)
(** std::acosh on [1, +oo) *)
Definition acosh (x : R) : R := ln (x + sqrt (x * x - 1)).
(** fenetres.cc:267-275 cheb_eval *)
Definition cheb_eval (x : R) (n : nat) : R :=
  if Rle_dec (-1) x then if Rle_dec x 1 then cos (INR n * acos x) else cosh (INR n * acosh x)
  else (if Nat.odd n then -1 else 1) * cosh (INR n * acosh (- x)).
(** valeur_max of a non-empty vector *)
Definition vmax (l : list R) : R := match l with [] => 0 | a :: t => fold_left Rmax t a end.
(** fenetres.cc:280-311 fenêtre_chebychev, for atten_db >= 0 (acosh of a number >= 1).  ifft is the inverse DFT, scaled by
    1 / sqrt of the length (C19); X is real, so the real part is a sum of cosines. *)
Definition cheb_X (n : nat) (beta : R) : list R :=
  map (fun i => (if Nat.odd i then -1 else 1) * cheb_eval (beta * cos (PI * INR i / INR (n - 1))) (n - 1)) (seq 0 (n - 1)).
Definition re_ifft (X : list R) : list R :=
  map (fun k => sum (K := Rring) (List.length X) (fun i => nth i X 0 * cos (2 * PI * INR i * INR k / INR (List.length X))) / sqrt (INR (List.length X))) (seq 0 (List.length X)).
Definition cheb_beta (n : nat) (atten_db : R) : R := cosh (acosh (Rpower 10 (atten_db / 20)) * (1 / INR (n - 1))).
Definition fenetre_chebychev (n : nat) (atten_db : R) : list R :=
  if (n <=? 1)%nat then repeat 1 n else
  let w := re_ifft (cheb_X n (cheb_beta n atten_db)) in
  let w0 := nth 0 w 0 / 2 in
  let w := upd w 0 w0 ++ [w0] in
  map (fun v => v / vmax w) w.

(** fenetres.cc:213-264 fenêtre *)
Definition fen (type : fenetre) (n : nat) (sym : bool) : list R :=
  match type with
  | AUCUNE => repeat 1 n
  | HANN => hamming_gen (1 / 2) n sym
  | HAMMING => hamming_gen (54 / 100) n sym
  | TRIANGLE => map (fun t => if Rlt_dec t 0 then 2 * (1 / 2 + t) else 2 * (1 / 2 - t)) (fen_inter n sym)
  | BLACKMAN =>
      let alpha := 16 / 100 in let a0 := (1 - alpha) / 2 in let a1 := 1 / 2 in let a2 := alpha / 2 in
      map (fun u => let t := 2 * PI * u + PI in - a1 * cos t + a2 * cos (2 * t) + a0) (fen_inter n sym)
  | CHEBYCHEV => fenetre_chebychev n 80
  end.
(** fenetres.cc:208-211 *)
Definition fen_nom (s : string) (n : nat) (sym : bool) : res (list R) := let* t := parse_fenetre s in Ok (fen t n sym).

(** ** Kaiser window; I0 is std::cyl_bessel_i(0, .) *)
Section Kaiser.
  Variable I0 : R -> R.
  (** fenetres.cc:60-83 fenêtre_kaiser1 *)
  Definition fenetre_kaiser1 (n : nat) (beta : R) (sym : bool) : list R :=
    let beta := beta * PI in
    let d := 1 / I0 beta in
    map (fun t => let K := 2 * t in I0 (beta * sqrt (1 - K * K)) * d) (fen_inter n sym).
  (** fenetres.cc:85-100 kaiser_param *)
  Definition kaiser_param (atten_db df : R) : R * Z :=
    let dw := 2 * PI * df in
    let n := ceilZ ((atten_db - 795 / 100) / (2285 / 1000 * dw)) in
    let n := if (n <=? 0)%Z then 1%Z else n in
    let n := if Z.even n then (n + 1)%Z else n in
    let beta := if Rlt_dec 50 atten_db then 1102 / 10000 * (atten_db - 87 / 10)
                else if Rle_dec 21 atten_db then 5842 / 10000 * (if Req_EM_T atten_db 21 then 0 else Rpower (atten_db - 21) (4 / 10)) + 7886 / 100000 * (atten_db - 21)
                else 0 in
    (beta / PI, n).
  (** fenetres.cc:102-106 fenêtre_kaiser *)
  Definition fenetre_kaiser (atten_db df : R) (sym : bool) : list R :=
    let (beta, n) := kaiser_param atten_db df in fenetre_kaiser1 (Z.to_nat n) beta sym.
End Kaiser.
