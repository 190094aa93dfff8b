(** Model of core/src/telecom/canalisation/etalement-spectre.cc (DSSS and FHSS
    transmitters) and core/src/telecom/canalisation/transpo-bb.cc, in exact
    arithmetic.  The half-band filter and the interpolator of the rate adapter are
    parameters, as in Ra_Model.v. *)
From Coq Require Import Reals.
From Verif Require Import Base ComplexSys Filters_Model Polyphase_Model Ra_Model Sig_Model.

Section DSSS.
  Context {K : cring}.
  Variables (half : K) (coefs : list K) (itp : list K -> R -> res K) (nfen : nat).
  Record dsss := mkdsss { ds_ra : raa (K := K); ds_chips : list K; ds_osf : nat; ds_index : nat }.
  (** etalement-spectre.cc:105-115 configure_impl *)
  Definition dsss_init (fuel : nat) (chips : list K) (osf_in : nat) : res dsss :=
    let nbits := length chips in
    let* m := imod nbits osf_in in
    if negb (m =? 0)%nat then Exc else
    let* ra := raa_init coefs fuel (INR nbits / INR osf_in)%R nfen in
    Ok (mkdsss ra chips osf_in 0).
  (** etalement-spectre.cc:127-129: y(j) *= chips(index++ % nbits) *)
  Fixpoint ds_mul (chips : list K) (index : nat) (y : list K) : res (nat * list K) :=
    match y with
    | [] => Ok (index, [])
    | a :: t =>
        let* m := imod index (length chips) in
        let* c := vget chips m in
        let* (i, l) := ds_mul chips (index + 1) t in
        Ok (i, (a * c)%K :: l)
    end.
  (** etalement-spectre.cc:117-137 step *)
  Definition dsss_step (s : dsss) (x : list K) : res (dsss * list K) :=
    let* m := imod (length x) (ds_osf s) in
    if negb (m =? 0)%nat then Exc else
    let* (ra, u) := raa_step half itp (ds_ra s) x in
    let* (i, y) := ds_mul (ds_chips s) (ds_index s) u in
    Ok (mkdsss ra (ds_chips s) (ds_osf s) i, y).
End DSSS.
Arguments mkdsss {K}. Arguments ds_ra {K}. Arguments ds_chips {K}. Arguments ds_osf {K}. Arguments ds_index {K}.

(** ** Frequency hopping *)
Definition osc : Type := ((R * R) * (R * R))%type.
(** y.segment(i, D) *= o *)
Definition mul_seg (y : list C) (i : nat) (o : list C) : list C :=
  map (fun j => if (i <=? j)%nat && (j <? i + length o)%nat then Cmul (nth j y (0, 0)%R) (nth (j - i) o (0, 0)%R) else nth j y (0, 0)%R) (seq 0 (length y)).
(** etalement-spectre.cc:51-57: body for i = s * D; ol[i] is an unchecked access to a std::vector *)
Definition fh_body (D s : nat) (st : list osc * list C) : res (list osc * list C) :=
  let i := (s * D)%nat in
  match nth_error (fst st) i with
  | None => UB
  | Some o => let (o', w) := ohc_step o D in Ok (upd (fst st) i o', mul_seg (snd st) i w)
  end.
Section FHSS.
  Variables (half : Cring) (coefs : list Cring) (itp : list Cring -> R -> res Cring) (nfen : nat).
  Record fhss := mkfhss { fh_ra : raa (K := Cring); fh_ol : list osc; fh_D : nat }.
  (** etalement-spectre.cc:23-43 configure_impl; the values of the hop sequence are not read; 0 hops: no oscillator *)
  Definition fhss_init (fuel : nat) (hops : list Z) (osf_in osf_out D : nat) : res fhss :=
    let nfreqs := length hops in
    let* ra := raa_init coefs fuel (INR osf_out / INR osf_in)%R nfen in
    Ok (mkfhss ra (map (fun i => ohc_new (INR i / INR nfreqs)%R) (seq 0 nfreqs)) D).
  (** etalement-spectre.cc:44-59 step; for(i = 0; i + D <= rows; i += D) does rows / D turns with i = s * D, and never ends if D = 0 *)
  Definition fhss_step (s : fhss) (x : list Cring) : res (fhss * list Cring) :=
    let* (ra, u) := raa_step half itp (fh_ra s) x in
    if (fh_D s =? 0)%nat then (if (length (fh_ol s) =? 0)%nat then UB else Diverge) else
    let* (ol, y) := loop (length u / fh_D s) (fh_body (fh_D s)) (fh_ol s, u) in
    Ok (mkfhss ra ol (fh_D s), y).
End FHSS.

(** ** transpo-bb.cc *)
(** state: oscillator, image filter (real input only) *)
Definition tbb_init (fi : R) (h : list Cring) : osc * fir Cring := (ohc_new (- fi), fir_init h).
(** transpo-bb.cc:46-52, complex input *)
Definition tbb_step_c (s : osc * fir Cring) (x : list Cring) : res ((osc * fir Cring) * list Cring) :=
  let (o, w) := ohc_step (fst s) (length x) in
  Ok ((o, snd s), map (fun p => Cmul (fst p) (snd p)) (combine x w)).
(** the same, real input (converted to complex): then the image filter; h = design_rif_fen(63, lp, fc) *)
Definition tbb_step_r (s : osc * fir Cring) (x : list R) : res ((osc * fir Cring) * list Cring) :=
  let (o, w) := ohc_step (fst s) (length x) in
  let* (g, y) := fir_step (snd s) (map (fun p => Cmul (fst p, 0%R) (snd p)) (combine x w) : list Cring) in
  Ok ((o, g), y).
