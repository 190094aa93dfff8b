(** Model of core/src/telecom/analogique.cc: FM discriminator, AM modulator and
    demodulator, FM demodulator.  Exact arithmetic; resamplers, second-order chains,
    pilot PLL and RDS demodulator are parameters (functions from a state and a block to
    a new state and a block); plots and logs are not modelled. *)
From Coq Require Import Reals String.
From Verif Require Import Base RField ComplexSys DftSys Filters_Model Polyphase_Model Sig_Model Win_Model Rif_Model Hil_Model Pll_Model.
Local Open Scope R_scope.

(** analogique.cc:19-66 FMDiscri.  The first loop (37-52) fills y with another estimate,
    which the second one (57-62) overwrites; it has no other effect (x1 = 0 is tested
    before the division). *)
Definition conjz (z : R * R) : R * R := (fst z, - snd z).
Definition mulz (a b : R * R) : R * R := (fst a * fst b - snd a * snd b, fst a * snd b + snd a * fst b).
Definition discri_sample (last x : R * R) : res ((R * R) * R) := Ok (x, arg (mulz x (conjz last))).
Definition discri_init : R * R := (0, 0).
Definition discri_step (last : R * R) (x : list (R * R)) : res ((R * R) * list R) := map_st discri_sample last x.

(** telecom.hpp:1894-1933 *)
Inductive amode := DSB | DSB_SC | LSB | USB.
Definition est_BLU (m : amode) : bool := match m with LSB | USB => true | _ => false end.

Section Modulator.
  Variable Sra : Type.
  (** filtre_reechan(fe_rf / fe_sortie) *)
  Variable ra : Sra -> list R -> res (Sra * list R).
  Record am_mod := mkam { am_ra : Sra; am_ol : (R * R) * (R * R); am_hil : option (fir Rring * delay Rring) }.
  (** analogique.cc:88-98 configure_impl; nu = f_rf / fe_rf *)
  Definition am_init (m : amode) (ra0 : Sra) (nu : R) : res am_mod :=
    if est_BLU m then let* h := hil_init 255 "hn" in Ok (mkam ra0 (ohc_new nu) (Some h)) else Ok (mkam ra0 (ohc_new nu) None).
  (** abs(y).valeur_max() *)
  Definition peak (y : list R) : R := fold_right (fun v a => Rmax (Rabs v) a) 0 y.
  Definition times_re (y : list R) (o : list (R * R)) : list R := map (fun p => fst p * fst (snd p)) (combine y o).
  (** analogique.cc:99-140 step.  DSB: a quotient by a null peak (NaN in the code) is
      reported as UB; an empty block gives an empty block. *)
  Definition am_step (m : amode) (indice : R) (s : am_mod) (x : list R) : res (am_mod * list R) :=
    let* (r, y) := ra (am_ra s) x in
    match m with
    | DSB =>
      let mx := peak y in
      if andb (negb (List.length y =? 0)%nat) (if Req_EM_T mx 0 then true else false) then UB else
      let (ol, o) := ohc_step (am_ol s) (List.length y) in
      Ok (mkam r ol (am_hil s), times_re (map (fun v => 1 + indice * v / mx) y) o)
    | DSB_SC =>
      let (ol, o) := ohc_step (am_ol s) (List.length y) in
      Ok (mkam r ol (am_hil s), times_re y o)
    | _ =>
      match am_hil s with
      | None => UB
      | Some h =>
        let* (h, z) := hil_step h y in
        let (ol, o) := ohc_step (am_ol s) (List.length z) in
        let signe := match m with LSB => -1 | _ => 1 end in
        Ok (mkam r ol (Some h), map (fun p => fst (fst p) * fst (snd p) + signe * snd (fst p) * snd (snd p)) (combine z o))
      end
    end.
End Modulator.
Arguments mkam {Sra}. Arguments am_ra {Sra}. Arguments am_ol {Sra}. Arguments am_hil {Sra}. Arguments am_init {Sra}. Arguments am_step {Sra}.

Section Demodulator.
  Variables (Sra Slp Shp : Type).
  Variable ra : Sra -> list R -> res (Sra * list R).
  Variable lp : Slp -> list R -> res (Slp * list R).
  Variable hp : Shp -> list R -> res (Shp * list R).
  Record am_dem := mkad { ad_ra : Sra; ad_lp : Slp; ad_hp : Shp; ad_ol : (R * R) * (R * R); ad_hil : option (fir Rring * delay Rring) }.
  (** analogique.cc:158-190 configure_impl; nu = f_rf / fe_rf; hilbert of 127 taps and delay of 63 samples *)
  Definition ad_init (m : amode) (ra0 : Sra) (lp0 : Slp) (hp0 : Shp) (nu : R) : res am_dem :=
    if est_BLU m then let* h := hil_init 127 "hn" in Ok (mkad ra0 lp0 hp0 (ohc_new (- nu)) (Some h)) else Ok (mkad ra0 lp0 hp0 (ohc_new (- nu)) None).
  (** subtraction of two vectors of the same size *)
  Definition vminus (a b : list R) : res (list R) := if (List.length a =? List.length b)%nat then Ok (map (fun p => fst p - snd p) (combine a b)) else Exc.
  (** analogique.cc:191-340 step.  In the modes with two bands the result y of 213 is
      overwritten at 326 by the filtered y1, which is still empty. *)
  Definition ad_step (m : amode) (s : am_dem) (x : list (R * R)) : res (am_dem * list R) :=
    let (ol, o) := ohc_step (ad_ol s) (List.length x) in
    let rftc := map (fun p => mulz (fst p) (snd p)) (combine x o) in
    let* (s, y1) := (if negb (est_BLU m) then
        let* (l, rft) := lp (ad_lp s) (map fst rftc) in
        let* (h, u) := hp (ad_hp s) rft in
        let* rft := vminus rft u in
        let* (r, _) := ra (ad_ra s) rft in
        Ok (mkad r l h ol (ad_hil s), [])
      else
        match ad_hil s with
        | None => UB
        | Some (f, d) =>
          let* (f, ix) := fir_step (K := Rring) f (map snd rftc) in
          let* (d, rx) := delay_step d (map fst rftc) in
          let* y1 := vminus rx ix in
          Ok (mkad (ad_ra s) (ad_lp s) (ad_hp s) ol (Some (f, d)), y1)
        end) in
    let* (l, y_lp) := lp (ad_lp s) y1 in
    let* (h, y_hp) := hp (ad_hp s) y1 in
    let* y := vminus y_lp y_hp in
    Ok (mkad (ad_ra s) l h (ad_ol s) (ad_hil s), y).
End Demodulator.
Arguments mkad {Sra Slp Shp}. Arguments ad_ra {Sra Slp Shp}. Arguments ad_lp {Sra Slp Shp}. Arguments ad_hp {Sra Slp Shp}. Arguments ad_ol {Sra Slp Shp}. Arguments ad_hil {Sra Slp Shp}.
Arguments ad_init {Sra Slp Shp}. Arguments ad_step {Sra Slp Shp}.

Section FM.
  Variables (Swb Sfm Srds Sa Sp : Type).
  Variable wb : Swb -> list (R * R) -> res (Swb * list (R * R)).
  Variable fm : Sfm -> list R -> res (Sfm * list R).
  (** the RDS demodulator: number of bits it returns *)
  Variable rds : Srds -> list R -> res (Srds * nat).
  Variable audio : Sa -> list R -> res (Sa * list R).
  Variable pll : Sp -> list R -> res (Sp * list R).
  Record fm_dem := mkfm { fd_wb : Swb; fd_last : R * R; fd_fm : Sfm; fd_rds : Srds; fd_L : Sa; fd_R : Sa; fd_pll : Sp }.
  (** analogique.cc:503-596 step (Rd: decimation ratio).  513-560: for every RDS bit, the
      product of a 1 x 26 block by the 26 x 10 matrix H is the element-wise one, which
      throws on different dimensions. *)
  Definition fd_step (Rd : nat) (s : fm_dem) (x : list (R * R)) : res (fm_dem * list (R * R)) :=
    let* (w, y1) := wb (fd_wb s) x in
    let* (l, a) := discri_step (fd_last s) y1 in
    let* (f, a2) := fm (fd_fm s) (map (fun v => v / 75000) a) in
    let* a3 := sousech a2 Rd in
    let* (r, nbits) := rds (fd_rds s) a3 in
    if (0 <? nbits)%nat then Exc else
    let* (sL, lpr) := audio (fd_L s) a3 in
    let* (p, cw) := pll (fd_pll s) a3 in
    if negb (List.length cw =? List.length a3)%nat then Exc else
    let* (sR, lmr) := audio (fd_R s) (map (fun q => fst q * fst q * snd q) (combine cw a3)) in
    if negb (List.length lpr =? List.length lmr)%nat then Exc else
    Ok (mkfm w l f r sL sR p, map (fun q => (fst q + snd q, fst q - snd q)) (combine lpr lmr)).
End FM.
