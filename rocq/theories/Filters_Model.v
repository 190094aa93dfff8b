(** Model of core/src/filtrage/filtre-rt.cc (real-time filters) and of the
    re-packetizer of core/src/tsd.cc.

    Arithmetic is exact (an arbitrary commutative ring or field of samples
    stands for float/cfloat): rounding is not modelled.  One call of
    [step(x)] (tsd.hpp:642, fresh output vector) is a function from the state
    and the input block to the new state and the output block. *)
From Verif Require Import Base.
Local Open Scope cring_scope.

(** Read through a raw pointer: outside the array it is undefined behaviour. *)
Definition pget {A} (l : list A) (i : nat) : res A :=
  match nth_error l i with Some a => Ok a | None => UB end.

(** C++ int modulus by [k]: undefined for 0. *)
Definition imod (a k : nat) : res nat := if (k =? 0)%nat then UB else Ok (a mod k)%nat.

(** ** filtre-rt.cc:13-46, LigneARetard *)
Record delay (A : Type) := mkdelay { dl_fen : list A; dl_ri : nat; dl_ret : nat }.
Arguments mkdelay {A}. Arguments dl_fen {A}. Arguments dl_ri {A}. Arguments dl_ret {A}.
(** filtre-rt.cc:19-24 *)
Definition delay_init {K : cring} (r : nat) : delay K := mkdelay (repeat 0 r) 0 r.
(** filtre-rt.cc:37-42, loop body *)
Definition delay_sample {A} (s : delay A) (x : A) : res (delay A * A) :=
  let* y := vget (dl_fen s) (dl_ri s) in
  let* fen := vset (dl_fen s) (dl_ri s) x in
  let* ri := imod (dl_ri s + 1) (dl_ret s) in
  Ok (mkdelay fen ri (dl_ret s), y).
(** filtre-rt.cc:26-43 *)
Definition delay_step {A} (s : delay A) (x : list A) : res (delay A * list A) :=
  if (dl_ret s =? 0)%nat then Ok (s, x) else map_st delay_sample s x.

(** ** Dot product of a circular window with reversed coefficients
    (filtre-rt.cc:84-104 and 226-245): the window is read from [index] to its
    end, then from its start, while the coefficient pointer goes down from the
    last coefficient. *)
Definition circ_dot {K : cring} (fen coefs : list K) (index : nat) : res K :=
  let n := length coefs in
  let k1 := (n - index)%nat in
  let k2 := (n - k1)%nat in
  let* s1 := loop k1 (fun i s => let* f := pget fen (index + i) in
                                 let* c := pget coefs (n - 1 - i) in Ok (s + f * c)) 0 in
  loop k2 (fun i s => let* f := pget fen i in
                      let* c := pget coefs (n - 1 - k1 - i) in Ok (s + f * c)) s1.

(** ** filtre-rt.cc:53-109, FiltreRIF.  Coefficients and samples in the same ring. *)
Record fir (K : cring) := mkfir { fir_fen : list K; fir_index : nat; fir_coefs : list K }.
Arguments mkfir {K}. Arguments fir_fen {K}. Arguments fir_index {K}. Arguments fir_coefs {K}.
(** filtre-rt.cc:60-65 *)
Definition fir_init {K : cring} (c : list K) : fir K := mkfir (repeat 0 (length c)) 0 c.
(** filtre-rt.cc:82-107, loop body *)
Definition fir_sample {K : cring} (s : fir K) (x : K) : res (fir K * K) :=
  let* fen := vset (fir_fen s) (fir_index s) x in
  let* index := imod (fir_index s + 1) (length (fir_coefs s)) in
  let* y := circ_dot fen (fir_coefs s) index in
  Ok (mkfir fen index (fir_coefs s), y).
(** filtre-rt.cc:67-108 *)
Definition fir_step {K : cring} (s : fir K) (x : list K) : res (fir K * list K) :=
  if (length (fir_coefs s) =? 0)%nat then Exc else map_st fir_sample s x.

(** ** filtre-rt.cc:111-124, FiltreId *)
Definition id_step {A} (s : unit) (x : list A) : res (unit * list A) := Ok (s, x).

(** ** filtre-rt.cc:127-164, Decimateur *)
Record decim := mkdecim { dc_R : nat; dc_cnt : Z }.
(** filtre-rt.cc:131-134 *)
Definition decim_init (R : nat) : decim := mkdecim R 0.
(** filtre-rt.cc:141-150 : [for(i = cnt; i < n; i += R)]; [ny] is y.rows(), the
    written part of y is its prefix of length j. *)
Fixpoint decim_loop {A} (fuel : nat) (x : list A) (R ny : nat) (i : Z) (y : list A)
    : res (Z * list A) :=
  match fuel with
  | O => Diverge
  | S f =>
      if (i <? Z.of_nat (length x))%Z then
        if (ny <=? length y)%nat then Exc else
        let* v := vgetZ x i in
        decim_loop f x R ny (i + Z.of_nat R)%Z (y ++ [v])
      else Ok (i, y)
  end.
(** filtre-rt.cc:135-163 *)
Definition decim_step {A} (s : decim) (x : list A) : res (decim * list A) :=
  let n := Z.of_nat (length x) in
  let R := Z.of_nat (dc_R s) in
  if (R =? 0)%Z then UB else
  let ny := Z.to_nat (Z.quot (n + R - 1 - dc_cnt s) R) in
  let* (i, y) := decim_loop (S (length x)) x (dc_R s) ny (dc_cnt s) [] in
  if (length y =? ny)%nat
  then Ok (mkdecim (dc_R s) ((i - R) - (n - R)), y)
  else Exc.

(** ** filtre-rt.cc:177-287, FiltreRII (direct form I on blocks: the whole block
    goes through the numerator, then through the recursion). *)
Record iir (K : cring) := mkiir {
  ii_num : list K; ii_den : list K;
  ii_wndx : list K; ii_index : nat; ii_wndy : list K; ii_indexy : nat }.
Arguments mkiir {K}. Arguments ii_num {K}. Arguments ii_den {K}. Arguments ii_wndx {K}.
Arguments ii_index {K}. Arguments ii_wndy {K}. Arguments ii_indexy {K}.
(** filtre-rt.cc:200-209; [denom.rows() - 1] is natural subtraction: an empty
    denominator is outside the model. *)
Definition iir_init {K : cring} (num den : list K) : iir K :=
  mkiir num den (repeat 0 (length num)) 0 (repeat 0 (length den - 1)) 0.
(** filtre-rt.cc:224-248 *)
Definition iir_num_sample {K : cring} (s : iir K) (x : K) : res (iir K * K) :=
  let* w := vset (ii_wndx s) (ii_index s) x in
  let* index := imod (ii_index s + 1) (length (ii_num s)) in
  let* y := circ_dot w (ii_num s) index in
  Ok (mkiir (ii_num s) (ii_den s) w index (ii_wndy s) (ii_indexy s), y).
(** filtre-rt.cc:252-281 *)
Definition iir_den_sample {K : cfield} (s : iir K) (v : K) : res (iir K * K) :=
  let ky := (length (ii_den s) - 1)%nat in
  let k1 := (ky - ii_indexy s)%nat in
  let k2 := (ky - k1)%nat in
  let* s1 := loop k1 (fun i a => let* w := pget (ii_wndy s) (ii_indexy s + i) in
                                 let* d := pget (ii_den s) (1 + i) in Ok (a - w * d)) v in
  let* s2 := loop k2 (fun i a => let* w := pget (ii_wndy s) i in
                                 let* d := pget (ii_den s) (1 + k1 + i) in Ok (a - w * d)) s1 in
  let* d0 := vget (ii_den s) 0 in
  let y := (s2 / d0) in
  let* iy := imod (ii_indexy s + ky - 1) ky in
  let* w := vset (ii_wndy s) iy y in
  Ok (mkiir (ii_num s) (ii_den s) (ii_wndx s) (ii_index s) w iy, y).
(** filtre-rt.cc:210-282 *)
Definition iir_step {K : cfield} (s : iir K) (x : list K) : res (iir K * list K) :=
  let* (s1, v) := map_st iir_num_sample s x in
  map_st iir_den_sample s1 v.

(** ** filtre-rt.cc:633-667, MoyenneGlissante (accumulator in the same ring) *)
Record mg (K : cring) := mkmg { mg_fen : list K; mg_index : nat; mg_acc : K; mg_inv : K }.
Arguments mkmg {K}. Arguments mg_fen {K}. Arguments mg_index {K}. Arguments mg_acc {K}. Arguments mg_inv {K}.
(** filtre-rt.cc:642-647 *)
Definition mg_init {K : cfield} (k : nat) : mg K := mkmg (repeat 0 k) 0 0 (1 / cnat k).
(** filtre-rt.cc:658-665 *)
Definition mg_sample {K : cring} (s : mg K) (x : K) : res (mg K * K) :=
  let acc := mg_acc s + x in
  let* old := vget (mg_fen s) (mg_index s) in
  let acc := acc - old in
  let* fen := vset (mg_fen s) (mg_index s) x in
  let* index := imod (mg_index s + 1) (length (mg_fen s)) in
  Ok (mkmg fen index acc (mg_inv s), acc * mg_inv s).
(** filtre-rt.cc:649-666 *)
Definition mg_step {K : cring} (s : mg K) (x : list K) : res (mg K * list K) :=
  if (length (mg_fen s) =? 0)%nat then Exc else map_st mg_sample s x.

(** ** filtre-rt.cc:725-763, FiltreLExp.  For an empty block the code returns
    before touching y; with a fresh y this is the empty vector. *)
Record lexp (K : cring) := mklexp { le_acc : K; le_g : K; le_init : bool }.
Arguments mklexp {K}. Arguments le_acc {K}. Arguments le_g {K}. Arguments le_init {K}.
Definition lexp_init {K : cring} (g : K) : lexp K := mklexp 0 g false.
(** filtre-rt.cc:754-759 *)
Definition lexp_sample {K : cring} (s : lexp K) (x : K) : res (lexp K * K) :=
  let acc := le_acc s + le_g s * (x - le_acc s) in
  Ok (mklexp acc (le_g s) (le_init s), acc).
(** filtre-rt.cc:739-762 *)
Definition lexp_step {K : cring} (s : lexp K) (x : list K) : res (lexp K * list K) :=
  match x with
  | [] => Ok (s, [])
  | x0 :: _ =>
      let acc := if le_init s then le_acc s else x0 in
      let* (s1, y) := map_st lexp_sample (mklexp acc (le_g s) (le_init s)) x in
      Ok (mklexp (le_acc s1) (le_g s1) true, y)
  end.

(** ** filtre-rt.cc:604-629, FiltreDC (the coefficient is a parameter) *)
Record fdc (K : cring) := mkfdc { fd_a : K; fd_xp : K; fd_yp : K }.
Arguments mkfdc {K}. Arguments fd_a {K}. Arguments fd_xp {K}. Arguments fd_yp {K}.
Definition dc_init {K : cring} (a : K) : fdc K := mkfdc a 0 0.
Definition dc_sample {K : cring} (s : fdc K) (x : K) : res (fdc K * K) :=
  let y := fd_a s * ((x - fd_xp s) + fd_yp s) in
  Ok (mkfdc (fd_a s) x y, y).
Definition dc_step {K : cring} (s : fdc K) (x : list K) : res (fdc K * list K) :=
  map_st dc_sample s x.

(** ** filtre-rt.cc:304-400, SOIS (second-order section) *)
Inductive rii_structure := FormeDirecte1 | FormeDirecte2.
Record sois (K : cring) := mksois {
  so_x1 : K; so_x2 : K; so_y0 : K; so_y1 : K; so_y2 : K;
  so_b0 : K; so_b1 : K; so_b2 : K; so_a1 : K; so_a2 : K;
  so_premier : bool; so_struct : rii_structure }.
Arguments mksois {K}. Arguments so_x1 {K}. Arguments so_x2 {K}. Arguments so_y0 {K}.
Arguments so_y1 {K}. Arguments so_y2 {K}. Arguments so_b0 {K}. Arguments so_b1 {K}.
Arguments so_b2 {K}. Arguments so_a1 {K}. Arguments so_a2 {K}. Arguments so_premier {K}.
Arguments so_struct {K}.
(** filtre-rt.cc:317-345; [a0 = 0] is refused (an arbitrary field has no zero test, so the caller
    passes its result). *)
Definition sois_configure {K : cfield} (a0_is_zero : bool) (b0 b1 b2 a0 a1 a2 : K)
    (st : rii_structure) : res (sois K) :=
  if a0_is_zero then Exc else
  Ok (mksois 0 0 0 0 0 (b0 / a0) (b1 / a0) (b2 / a0) (a1 / a0) (a2 / a0) true st).
(** filtre-rt.cc:369-380 *)
Definition sois_df2 {K : cring} (s : sois K) (x0 : K) : res (sois K * K) :=
  let d2 := x0 - so_a1 s * so_y1 s - so_a2 s * so_y0 s in
  let y2 := so_b0 s * d2 + so_b1 s * so_y1 s + so_b2 s * so_y0 s in
  Ok (mksois (so_x1 s) (so_x2 s) (so_y1 s) d2 y2 (so_b0 s) (so_b1 s) (so_b2 s)
        (so_a1 s) (so_a2 s) (so_premier s) (so_struct s), y2).
(** filtre-rt.cc:384-393 *)
Definition sois_df1 {K : cring} (s : sois K) (x0 : K) : res (sois K * K) :=
  let y0 := so_b0 s * x0 + so_b1 s * so_x1 s + so_b2 s * so_x2 s
            - so_a1 s * so_y1 s - so_a2 s * so_y2 s in
  Ok (mksois x0 (so_x1 s) y0 y0 (so_y1 s) (so_b0 s) (so_b1 s) (so_b2 s)
        (so_a1 s) (so_a2 s) (so_premier s) (so_struct s), y0).
(** filtre-rt.cc:347-397 *)
Definition sois_step {K : cring} (s : sois K) (x : list K) : res (sois K * list K) :=
  match x with
  | [] => Ok (s, [])
  | v :: _ =>
      let s1 := if so_premier s
                then mksois v v v v v (so_b0 s) (so_b1 s) (so_b2 s) (so_a1 s) (so_a2 s)
                       false (so_struct s)
                else s in
      map_st (match so_struct s with FormeDirecte2 => sois_df2 | FormeDirecte1 => sois_df1 end) s1 x
  end.

(** ** filtre-rt.cc:407-437, RIIFoS (first-order section) *)
Record fos (K : cring) := mkfos { fo_b0 : K; fo_b1 : K; fo_a1 : K; fo_x1 : K; fo_y1 : K }.
Arguments mkfos {K}. Arguments fo_b0 {K}. Arguments fo_b1 {K}. Arguments fo_a1 {K}.
Arguments fo_x1 {K}. Arguments fo_y1 {K}.
Definition fos_configure {K : cring} (b0 b1 a1 : K) : fos K := mkfos b0 b1 a1 0 0.
Definition fos_sample {K : cring} (s : fos K) (x0 : K) : res (fos K * K) :=
  let y1 := - fo_a1 s * fo_y1 s + fo_b0 s * x0 + fo_b1 s * fo_x1 s in
  Ok (mkfos (fo_b0 s) (fo_b1 s) (fo_a1 s) x0 y1, y1).
Definition fos_step {K : cring} (s : fos K) (x : list K) : res (fos K * list K) :=
  map_st fos_sample s x.

(** ** filtre-rt.cc:440-571, ChaineSOIS: its step only (562-571).  The pairing of
    roots and poles (447-560, floating-point heuristics) is not modelled: the
    sections are given. *)
Record chaine (K : cring) := mkchaine {
  ch_gain : K; ch_sections : list (sois K); ch_rii1 : option (fos K) }.
Arguments mkchaine {K}. Arguments ch_gain {K}. Arguments ch_sections {K}. Arguments ch_rii1 {K}.
Fixpoint sections_step {K : cring} (ss : list (sois K)) (x : list K)
    : res (list (sois K) * list K) :=
  match ss with
  | [] => Ok ([], x)
  | s :: t => let* (s', y) := sois_step s x in
              let* (t', z) := sections_step t y in Ok (s' :: t', z)
  end.
Definition chaine_step {K : cring} (c : chaine K) (x : list K) : res (chaine K * list K) :=
  let* (ss, y) := sections_step (ch_sections c) x in
  match ch_rii1 c with
  | Some f => let* (f', z) := fos_step f y in Ok (mkchaine (ch_gain c) ss (Some f'), z)
  | None => Ok (mkchaine (ch_gain c) ss None, map (fun v => v * ch_gain c) y)
  end.

(** ** tsd.cc:307-371, TamponNv2.  The callback is represented by the list of the
    vectors it receives.  [junk] stands for the uninitialised contents of a freshly
    allocated vector. *)
Record tampon (A : Type) := mktampon { tp_N : nat; tp_windex : nat; tp_buf : list A }.
Arguments mktampon {A}. Arguments tp_N {A}. Arguments tp_windex {A}. Arguments tp_buf {A}.
(** tsd.cc:314-325: the constructor and [configure]; the buffer is not touched. *)
Definition tampon_init {A} (N : nat) : tampon A := mktampon N 0 [].
Definition tampon_configure {A} (s : tampon A) (N : nat) : tampon A := mktampon N 0 (tp_buf s).
(** [segment(i, n)] on a vector: exception when i + n exceeds its size. *)
Definition seg {A} (l : list A) (i n : nat) : res (list A) :=
  if (i + n <=? length l)%nat then Ok (firstn n (skipn i l)) else Exc.
Definition set_seg {A} (l : list A) (i : nat) (v : list A) : res (list A) :=
  if (i + length v <=? length l)%nat then Ok (firstn i l ++ v ++ skipn (i + length v) l) else Exc.
(** tsd.cc:344-369 *)
Fixpoint tampon_loop {A} (fuel : nat) (s : tampon A) (x : list A) (i : nat) (cb : list (list A))
    : res (tampon A * list (list A)) :=
  match fuel with
  | O => Diverge
  | S f =>
      if (i <? length x)%nat then
        let nw := (tp_windex s + length x - i)%nat in
        let nw := if (tp_N s <=? nw)%nat then tp_N s else nw in
        let nech := (nw - tp_windex s)%nat in
        let* v := seg x i nech in
        let* buf := set_seg (tp_buf s) (tp_windex s) v in
        if (nw =? tp_N s)%nat
        then tampon_loop f (mktampon (tp_N s) 0 buf) x (i + nech) (cb ++ [buf])
        else tampon_loop f (mktampon (tp_N s) nw buf) x (i + nech) cb
      else Ok (s, cb)
  end.
(** tsd.cc:332-370 *)
Definition tampon_step {A} (junk : A) (fuel : nat) (s : tampon A) (x : list A)
    : res (tampon A * list (list A)) :=
  if (tp_windex s =? 0)%nat && (length x =? tp_N s)%nat then Ok (s, [x]) else
  let s := if (length (tp_buf s) =? 0)%nat && (0 <? tp_N s)%nat
           then mktampon (tp_N s) (tp_windex s) (repeat junk (tp_N s)) else s in
  tampon_loop fuel s x 0 [].
