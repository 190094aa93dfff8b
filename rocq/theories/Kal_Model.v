(** Model of core/src/kalman/kalman.cc: state-space models, Kalman filter, extended Kalman filter,
    Riccati iteration and steady-state gain.

    Simplifications: floats are reals; the random generator and the Cholesky factor used by the simulator are
    replaced by arbitrary noise vectors; log output and plots are left out.  The numerical inversion of a matrix
    (Eigen) is a parameter [inv]: the theorems hold for every routine which returns the inverse of
    an invertible matrix. *)
From Coq Require Import List Arith Lia Bool Reals.
From Verif Require Import Base.
Import ListNotations.
Local Open Scope R_scope.

(** Two-dimensional float array (Tabf; a Vecf is an array with one column). *)
Record mat := Mat { rows : nat; cols : nat; el : nat -> nat -> R }.

(** Elements outside the array read as 0 in the model (they are never read by the operations below). *)
Definition cut (r c : nat) (f : nat -> nat -> R) : nat -> nat -> R :=
  fun i j => if (i <? r)%nat && (j <? c)%nat then f i j else 0.

Definition mk (r c : nat) (f : nat -> nat -> R) : mat := Mat r c (cut r c f).

(** sum_{k < n} f k *)
Fixpoint sg (n : nat) (f : nat -> R) : R :=
  match n with O => 0 | S n' => sg n' f + f n' end.

(** Tabf(): empty array. *)
Definition mempty : mat := mk 0 0 (fun _ _ => 0).

(** Tab::zeros, Tab::eye (core/src/tableau.cc:875-886). *)
Definition mzeros (r c : nat) : mat := mk r c (fun _ _ => 0).
Definition meye (n : nat) : mat := mk n n (fun i j => if (i =? j)%nat then 1 else 0).

(** Tab::transpose_int (tableau.cc:822-842). *)
Definition mtr (a : mat) : mat := mk (cols a) (rows a) (fun i j => el a j i).

(** Tab::matprod (tableau.cc:936-951): no check of the dimensions (Eigen undefined behaviour otherwise). *)
Definition mprod (a b : mat) : res mat :=
  if (cols a =? rows b)%nat
  then Ok (mk (rows a) (cols b) (fun i j => sg (cols a) (fun k => el a i k * el b k j)))
  else UB.

Definition same_dims (a b : mat) : bool := (rows a =? rows b)%nat && (cols a =? cols b)%nat.

(** Binary operators of Tab: element-wise, exception when the dimensions differ
    (include/tsd/tableau.hpp, tableau.cc: est_de_meme_dimensions). *)
Definition mbin (op : R -> R -> R) (a b : mat) : res mat :=
  if same_dims a b then Ok (mk (rows a) (cols a) (fun i j => op (el a i j) (el b i j))) else Exc.
Definition madd := mbin Rplus.
Definition msub := mbin Rminus.
Definition mmul_elt := mbin Rmult.

(** Compound operators (+=): no check of the dimensions (Eigen). *)
Definition maddc (a b : mat) : res mat :=
  if same_dims a b then Ok (mk (rows a) (cols a) (fun i j => el a i j + el b i j)) else UB.

(** Tab::est_nul (tableau.cc:1154-1168): every element equals 0. *)
Definition est_nul (a : mat) : bool :=
  forallb (fun i => forallb (fun j => if Req_EM_T (el a i j) 0 then true else false) (seq 0 (cols a)))
          (seq 0 (rows a)).

(** TabT::est_vide (include/tsd/tableau.hpp:975-978). *)
Definition est_vide (a : mat) : bool := (rows a * cols a =? 0)%nat.

(** Tab::col (tableau.cc:496-513), read access to an existing column. *)
Definition mcol (a : mat) (j : nat) : mat := mk (rows a) 1 (fun i _ => el a i j).

(** Array made of given columns. *)
Definition hcat (r : nat) (l : list mat) : mat :=
  mk r (length l) (fun i j => el (nth j l mempty) i 0%nat).

Section Inversion.
Variable inv : nat -> (nat -> nat -> R) -> nat -> nat -> R.

(** Tab::inverse_matricielle (tableau.cc:1535-1547). *)
Definition minv (a : mat) : res mat :=
  if (rows a =? cols a)%nat then Ok (mk (rows a) (rows a) (inv (rows a) (el a))) else UB.

(** SSM / SSMLineaire (include/tsd/apps/kalman.hpp:26-138). *)
Record lin := Lin { ns : nat; no : nat; ni : nat;
                    mA : mat; mB : mat; mC : mat; mD : mat; mQ : mat; mR : mat }.

(** ssm_lineaire (kalman.cc:35-55): Q and R are left empty. *)
Definition ssm_lineaire (a c b d : mat) : res lin :=
  if negb (cols a =? rows a)%nat then Exc else
  if negb (cols a =? cols c)%nat then Exc else
  if negb (est_vide b) && negb (rows c =? rows d)%nat then Exc else
  Ok (Lin (rows a) (rows c) (cols b) a b c d mempty mempty).

(** modele_marche_aleatoire (kalman.cc:571-594). *)
Definition marche_aleatoire (n : nat) (q r : mat) : lin :=
  Lin n n 0 (meye n) mempty (meye n) mempty
      (if (rows q =? 0)%nat then meye n else q) (if (rows r =? 0)%nat then meye n else r).

(** modele_constante (kalman.cc:597-602). *)
Definition modele_constante (r : R) : lin :=
  marche_aleatoire 1 (mzeros 1 1) (mk 1 1 (fun _ _ => r * 1)).

(** State of FiltreKalman: current estimate and covariance matrix (kalman.cc:456-458, kalman.hpp:182). *)
Record kst := Kst { etat : mat; cov : mat }.

(** FiltreKalman::FiltreKalman (kalman.cc:462-478). *)
Definition kal_init (m : lin) (x0 p0 : mat) : res kst :=
  let x := if (rows x0 =? 0)%nat then mzeros (ns m) 1 else x0 in
  let p := if (rows p0 =? 0)%nat then meye (ns m) else p0 in
  if negb (rows x =? ns m)%nat then Exc else
  if negb ((rows p =? ns m)%nat && (cols p =? ns m)%nat) then Exc else
  Ok (Kst x p).

(** Gain of the filter (kalman.cc:505-511). *)
Definition kal_gain (c r pm : mat) : res mat :=
  if est_nul pm && est_nul r then minv c
  else
    let* pc := mprod pm (mtr c) in
    let* cpc := mprod c pc in
    let* s := madd cpc r in
    let* si := minv s in
    mprod pc si.

(** FiltreKalman::step (kalman.cc:486-522). *)
Definition kal_step (m : lin) (s : kst) (yu : mat * mat) : res (kst * mat) :=
  let (y, u) := yu in
  let* ax := mprod (mA m) (etat s) in
  let* xm := (if (0 <? rows (mB m))%nat then let* bu := mprod (mB m) u in maddc ax bu else Ok ax) in
  let* cx := mprod (mC m) xm in
  let* yth := (if (0 <? rows (mD m))%nat then let* du := mprod (mD m) u in maddc cx du else Ok cx) in
  let* pa := mprod (cov s) (mtr (mA m)) in
  let* apa := mprod (mA m) pa in
  let* pm := madd apa (mQ m) in
  let* k := kal_gain (mC m) (mR m) pm in
  let* d := msub y yth in
  let* kd := mprod k d in
  let* x := madd xm kd in
  let* kc := mprod k (mC m) in
  let* ikc := msub (meye (ns m)) kc in
  let* p := mprod ikc pm in
  Ok (Kst x p, x).

(** filtre_kalman (kalman.cc:559-562) followed by one call of step per observation. *)
Definition kal_run (m : lin) (x0 p0 : mat) (l : list (mat * mat)) : res (kst * list mat) :=
  let* s := kal_init m x0 p0 in map_st (kal_step m) s l.

(** Nonlinear state-space model (kalman.hpp:26-101): f, g and their Jacobian matrices. *)
Record nlin := Nlin { ns' : nat; no' : nat; nf : mat -> res mat; ng : mat -> res mat;
                      nJf : mat -> mat; nJg : mat -> mat; nQ : mat; nR : mat }.

(** SSMLineaire::f, g, Jf, Jg (kalman.cc:104-122): a linear model seen as a general one. *)
Definition nlin_of (m : lin) : nlin :=
  Nlin (ns m) (no m) (mprod (mA m)) (mprod (mC m)) (fun _ => mA m) (fun _ => mC m) (mQ m) (mR m).

(** Gain of the extended filter (kalman.cc:423-426). *)
Definition ekf_gain (c r pm : mat) : res mat :=
  if est_nul pm && est_nul r then minv (mtr c)
  else
    let* pc := mprod pm (mtr c) in
    let* pcr := madd pc r in
    let* s := mprod c pcr in
    let* si := minv s in
    mprod pc si.

(** FiltreEKF::FiltreEKF (kalman.cc:279-309), without the numerical checks. *)
Definition ekf_init (m : nlin) : kst := Kst (mzeros (ns' m) 1) (meye (ns' m)).

(** FiltreEKF::step (kalman.cc:343-451). *)
Definition ekf_step (m : nlin) (s : kst) (yu : mat * mat) : res (kst * mat) :=
  let (y, u) := yu in
  let a := nJf m (etat s) in
  let* xm := nf m (etat s) in
  let c := nJg m xm in
  let* yth := ng m xm in
  let* pa := mprod (cov s) (mtr a) in
  let* apa := mprod a pa in
  let* pm := madd apa (nQ m) in
  let* k := ekf_gain c (nR m) pm in
  let* d := msub y yth in
  let* kd := mprod k d in
  let* x := madd xm kd in
  let* kc := mprod k c in
  let* ikc := msub (meye (ns' m)) kc in
  let* p := mprod ikc pm in
  Ok (Kst x p, x).

(** FiltreSSM::steps (kalman.cc:526-557), for a filter whose step is [step]: the first column of the result
    is the current state, and the first observation is not used. *)
Definition filt_steps (nst nin : nat) (step : kst -> mat * mat -> res (kst * mat))
    (s : kst) (y u : mat) : res (kst * mat) :=
  if negb (rows u =? nin)%nat then Exc else
  if (0 <? nin)%nat && negb (cols u =? cols y)%nat then Exc else
  if (cols y =? 0)%nat then UB else
  let* p := map_st step s (map (fun i => (mcol y i, if (0 <? nin)%nat then mcol u i else mempty))
                                 (seq 1 (cols y - 1))) in
  let (s', l) := p in
  Ok (s', hcat nst (etat s :: l)).

(** One noise vector L.matprod(randn(n)) of the simulator (kalman.cc:171, 177); [L] has the dimensions of [q]. *)
Definition noise (q : mat) (n : nat) (v : nat -> R) : res mat :=
  if (cols q =? n)%nat then Ok (mk (rows q) 1 (fun i _ => v i)) else UB.

(** SSM::steps for a linear model (kalman.cc:124-196): initial state, check of the inputs, recursion.
    [cur] is the field etat (empty before the first call); the new value of the field is returned with
    the states and the observations.  [V i] and [W i] are the noise vectors drawn for the instant i. *)
Definition sim_init (m : lin) (cur x0 : mat) : res mat :=
  if (0 <? rows x0)%nat && negb (rows x0 =? ns m)%nat then Exc else
  let e := if (0 <? rows x0)%nat then x0 else cur in
  Ok (if (rows e =? 0)%nat then mzeros (ns m) 1 else e).

Definition sim_input (m : lin) (n : nat) (vin : mat) : res mat :=
  if (0 <? rows vin)%nat then
    if negb (rows vin =? ni m)%nat || negb (cols vin =? n)%nat then Exc else Ok vin
  else Ok (mzeros (ni m) n).

Definition sim_obs (m : lin) (vin : mat) (i : nat) (y : mat) : res mat :=
  if (0 <? ni m)%nat && negb (est_vide (mD m))
  then let* du := mprod (mD m) (mcol vin i) in maddc y du else Ok y.

Definition sim_step (m : lin) (vin : mat) (V W : nat -> nat -> R) (x : mat) (i : nat)
    : res (mat * (mat * mat)) :=
  let* v := noise (mQ m) (ns m) (V i) in
  let* ax := mprod (mA m) x in
  let* x1 := madd ax v in
  let* x2 := (if (0 <? ni m)%nat && negb (est_vide (mB m))
              then let* bu := mprod (mB m) (mcol vin i) in maddc x1 bu else Ok x1) in
  let* w := noise (mR m) (no m) (W i) in
  let* cx := mprod (mC m) x2 in
  let* y1 := madd cx w in
  let* y2 := sim_obs m vin i y1 in
  Ok (x2, (x2, y2)).

Definition sim_steps (m : lin) (n : nat) (cur x0 vin : mat) (V W : nat -> nat -> R)
    : res (mat * (mat * mat)) :=
  let* e := sim_init m cur x0 in
  let* u := sim_input m n vin in
  if (n =? 0)%nat then UB else
  let* cx := mprod (mC m) e in
  let* y0 := sim_obs m u 0 cx in
  let* p := map_st (sim_step m u V W) e (seq 1 (n - 1)) in
  let (_, l) := p in
  Ok (e, (hcat (ns m) (e :: map fst l), hcat (no m) (y0 :: map snd l))).

(** One iteration of dare (kalman.cc:25): every product is the element-wise operator of Tab. *)
Definition dare_iter (a c q r p : mat) : res mat :=
  let at_ := mtr a in
  let ct := mtr c in
  let* t1 := mmul_elt at_ p in
  let* t2 := mmul_elt t1 a in
  let* t3 := mmul_elt at_ p in
  let* t4 := mmul_elt t3 c in
  let* u1 := mmul_elt ct p in
  let* u2 := mmul_elt u1 c in
  let* s := madd r u2 in
  let* si := minv s in
  let* t5 := mmul_elt t4 si in
  let* t6 := mmul_elt t5 ct in
  let* t7 := mmul_elt t6 p in
  let* t8 := mmul_elt t7 a in
  let* d := msub t2 t8 in
  madd d q.

(** Largest element of |a - b| (kalman.cc:26). *)
Definition maxdiff (a b : mat) : R :=
  fold_right Rmax 0
    (flat_map (fun i => map (fun j => Rabs (el a i j - el b i j)) (seq 0 (cols a))) (seq 0 (rows a))).

(** dare (kalman.cc:12-32): at most [n] further iterations. *)
Fixpoint dare_loop (a c q r : mat) (tol : R) (n : nat) (p : mat) (diff : R) : res (mat * R) :=
  match n with
  | O => Ok (p, diff)
  | S n' =>
    let* p2 := dare_iter a c q r p in
    let* e := msub p2 p in
    let d := maxdiff p2 p in
    if Rlt_dec d tol then Ok (p2, d) else dare_loop a c q r tol n' p2 d
  end.

Definition dare (a c q r : mat) (tol : R) (iter_max : nat) : res (mat * R) :=
  let* ri := minv r in
  dare_loop a c q r tol iter_max q 0.

(** kalman_ssg (kalman.cc:637-651); [iter_max] is 1000 and the tolerance 1e-6 there. *)
Definition kalman_ssg (m : lin) (tol : R) (iter_max : nat) : res mat :=
  if est_nul (mQ m) then Ok (mzeros (ns m) (no m)) else
  let* pe := dare (mtr (mA m)) (mtr (mC m)) (mQ m) (mR m) tol iter_max in
  let (p, _) := pe in
  let* pc := mprod p (mtr (mC m)) in
  let* cpc := mprod (mC m) pc in
  let* s := madd (mR m) cpc in
  let* cs := mprod (mtr (mC m)) s in
  let* k := minv cs in
  mprod p k.

End Inversion.
