(** Model of the array type of libtsd: core/include/tsd/tableau.hpp (TabT) and
    core/src/tableau.cc (Tab, Tab::Impl), with an explicit heap so that the
    sharing between arrays and views is visible.

    One scalar type A per program (type conversions are not modelled).  Memory
    blocks are lists of cells; [None] is an uninitialised cell, a freed block is
    [None].  [Impl] objects live in a list and are shared through identifiers
    (shared_ptr); a block is never released while an [Impl] can reach it except
    by resize, so destructors are not modelled.  The cached pointer
    TabT::raw_data is the pointer of the Impl (true as long as the same Impl is
    not resized through another handle). *)
From Verif Require Import Base.
Open Scope Z_scope.

(** tableau.cc:143-150, the kinds that the library creates *)
Inductive kind := VALEUR | SEGMENT | BLOCK.
(** tableau.cc:157-168.  Dimensions: (n, 1) for one dimension; [ptr]: block and
    offset (in elements), [None] for nullptr; [blk]: blk_r0, blk_c0. *)
Record impl := mkimpl {
  ty : kind; nr : Z; nc : Z; ptr : option (nat * Z); enfant : option nat; blk : Z * Z }.

Section Tab.
  Context {A : Type}.
  Notation block_ := (option (list (option A))) (only parsing).
  Record st := mkst { mem : list block_; impls : list impl; env : nat -> option nat }.
  Definition empty : st := mkst [] [] (fun _ => None).

  (** tableau.cc:101-109 nb_éléments; 739-754 rows, cols *)
  Definition nelems (im : impl) : Z := nr im * nc im.
  (** tableau.cc:111-137, same dimensions *)
  Definition same_dims (a b : impl) : bool := (nr a =? nr b) && (nc a =? nc b).
  (** tableau.cc:476-481 est_reference *)
  Definition est_reference (im : impl) : bool := match ty im with VALEUR => false | _ => true end.

  (** The Impl of a variable; using a moved-from variable dereferences a null pointer. *)
  Definition impl_of (s : st) (v : nat) : res impl :=
    match env s v with
    | None => UB
    | Some k => match nth_error (impls s) k with Some im => Ok im | None => UB end
    end.

  (** tableau.cc:210-221 get_ptr_at(r, c); the enfant of an Impl is older, [fuel] bounds the depth *)
  Fixpoint ptr_at (fuel : nat) (s : st) (im : impl) (r c : Z) : option (nat * Z) :=
    match ty im with
    | BLOCK => match fuel, enfant im with
               | S fu, Some e => match nth_error (impls s) e with
                                 | Some ie => ptr_at fu s ie (fst (blk im) + r) (snd (blk im) + c)
                                 | None => None
                                 end
               | _, _ => None
               end
    | _ => match ptr im with Some (b, o) => Some (b, o + (r + c * nr im)) | None => None end
    end.
  Definition fuel_of (s : st) : nat := length (impls s).

  (** Raw memory accesses. *)
  Definition load (m : list block_) (p : option (nat * Z)) : res A :=
    match p with
    | Some (b, o) =>
        match nth_error m b with
        | Some (Some l) =>
            if o <? 0 then UB else
            match nth_error l (Z.to_nat o) with Some (Some a) => Ok a | _ => UB end
        | _ => UB
        end
    | None => UB
    end.
  Definition store (m : list block_) (p : option (nat * Z)) (a : A) : res (list block_) :=
    match p with
    | Some (b, o) =>
        match nth_error m b with
        | Some (Some l) =>
            if (o <? 0) || (Z.of_nat (length l) <=? o) then UB
            else Ok (upd m b (Some (upd l (Z.to_nat o) (Some a))))
        | _ => UB
        end
    | None => UB
    end.
  (** The cells [o .. o+n-1] of a block. *)
  Definition cells (m : list block_) (b : nat) (o n : Z) : res (list (option A)) :=
    match nth_error m b with
    | Some (Some l) =>
        if (o <? 0) || (n <? 0) || (Z.of_nat (length l) <? o + n) then UB
        else Ok (firstn (Z.to_nat n) (skipn (Z.to_nat o) l))
    | _ => UB
    end.
  Definition splice (l : list (option A)) (o : nat) (c : list (option A)) : list (option A) :=
    firstn o l ++ c ++ skipn (o + length c) l.
  (** [memcpy] of [n] elements: undefined when the areas overlap, a pointer is
      invalid, or [n] is negative (huge once converted to size_t). *)
  Definition memcpy (m : list block_) (dst src : option (nat * Z)) (n : Z) : res (list block_) :=
    if n =? 0 then Ok m else
    match dst, src with
    | Some (bd, od), Some (bs, os) =>
        if ((bd =? bs)%nat && (Z.abs (od - os) <? n))%bool then UB else
        let* c := cells m bs os n in
        let* _ := cells m bd od n in
        match nth_error m bd with
        | Some (Some l) => Ok (upd m bd (Some (splice l (Z.to_nat od) c)))
        | _ => UB
        end
    | _, _ => UB
    end.

  Definition set_env (e : nat -> option nat) (v : nat) (k : option nat) : nat -> option nat :=
    fun u => if (u =? v)%nat then k else e u.
  (** A new Impl, bound to variable v. *)
  Definition bind_new (s : st) (v : nat) (m : list block_) (im : impl) : st :=
    mkst m (impls s ++ [im]) (set_env (env s) v (Some (length (impls s)))).

  (** tableau.cc:687-699 setup: fresh uninitialised block, or nullptr when empty *)
  Definition alloc (m : list block_) (n : Z) : list block_ * option (nat * Z) :=
    if 0 <? n then (m ++ [Some (repeat None (Z.to_nat n))], Some (length m, 0)) else (m, None).
  Definition dims_of (n m : Z) : Z * Z := if 1 <? m then (n, m) else (n, 1).

  (** tableau.hpp:594-600 TabT(n, m): [Vecf v(n)], [Tabf v(n, m)] *)
  Definition decl (s : st) (v : nat) (n m : Z) : res st :=
    let (r, c) := dims_of n m in
    let (m', p) := alloc (mem s) (r * c) in
    Ok (bind_new s v m' (mkimpl VALEUR r c p None (0, 0))).

  (** Column-by-column copy (tableau.cc:240-246 and 1071-1079). *)
  Fixpoint cols_copy (n : nat) (m : list block_) (dst src : Z -> option (nat * Z)) (rows : Z) : res (list block_) :=
    match n with
    | O => Ok m
    | S k => let* m1 := cols_copy k m dst src rows in memcpy m1 (dst (Z.of_nat k)) (src (Z.of_nat k)) rows
    end.

  (** tableau.cc:224-251 clone, as a new Impl bound to v.  (A null source gives a null copy.) *)
  Definition clone_to (s : st) (v : nat) (im : impl) : res st :=
    match ptr im with
    | None => Ok (bind_new s v (mem s) (mkimpl VALEUR (nr im) (nc im) None None (0, 0)))
    | Some _ =>
        let n := nelems im in
        if n <? 0 then UB else
        let m0 := mem s ++ [Some (repeat None (Z.to_nat n))] in
        let b := length (mem s) in
        let* m1 :=
          match ty im with
          | BLOCK => cols_copy (Z.to_nat (nc im)) m0 (fun c => Some (b, c * nr im))
                       (fun c => ptr_at (fuel_of s) s im 0 c) (nr im)
          | _ => memcpy m0 (Some (b, 0)) (ptr im) n
          end in
        Ok (bind_new s v m1 (mkimpl VALEUR (nr im) (nc im) (Some (b, 0)) None (0, 0)))
    end.

  (** tableau.cc:1054-1080 copie, same scalar type *)
  Definition copie (s : st) (dst src : impl) : res st :=
    if negb (same_dims dst src) then Exc else
    let* m1 :=
      match ty dst, ty src with
      | BLOCK, _ | _, BLOCK =>
          cols_copy (Z.to_nat (nc dst)) (mem s) (fun c => ptr_at (fuel_of s) s dst 0 c)
            (fun c => ptr_at (fuel_of s) s src 0 c) (nr dst)
      | _, _ => memcpy (mem s) (ptr dst) (ptr src) (nelems dst)
      end in
    Ok (mkst m1 (impls s) (env s)).

  (** tableau.hpp:571-575 copy constructor [Vecf v = w] *)
  Definition copy (s : st) (v w : nat) : res st :=
    let* im := impl_of s w in clone_to s v im.

  (** tableau.hpp:578-592 [v = w]: written through when v is a view of the same
      dimensions, otherwise v becomes a copy *)
  Definition assign (s : st) (v w : nat) : res st :=
    let* src := impl_of s w in
    match env s v with
    | None => clone_to s v src
    | Some _ =>
        let* dst := impl_of s v in
        if est_reference dst && same_dims dst src then copie s dst src else clone_to s v src
    end.

  (** tableau.hpp:546-569 [v = move(w)] (w a temporary) *)
  Definition move_assign (s : st) (v w : nat) : res st :=
    let* src := impl_of s w in
    let mv := mkst (mem s) (impls s) (set_env (set_env (env s) v (env s w)) w None) in
    match env s v with
    | None => Ok mv
    | Some _ =>
        let* dst := impl_of s v in
        if est_reference dst && same_dims dst src then copie s dst src else Ok mv
    end.

  (** tableau.cc:515-532 and tableau.hpp:898-901 [Vecf v = w.segment(i0, n)]; the
      conversion TabT(const Tab&) keeps the Impl (tableau.hpp:495-511) *)
  Definition segment (s : st) (v w : nat) (i0 n : Z) : res st :=
    let* im := impl_of s w in
    if nr im <? i0 + n then Exc else
    Ok (bind_new s v (mem s) (mkimpl SEGMENT n 1
          (match ptr im with Some (b, o) => Some (b, o + i0) | None => None end) (env s w) (0, 0))).
  (** tableau.hpp:890-897 head, tail *)
  Definition head (s : st) (v w : nat) (n : Z) : res st := segment s v w 0 n.
  Definition tail (s : st) (v w : nat) (n : Z) : res st :=
    let* im := impl_of s w in segment s v w (nr im - n) n.
  (** tableau.cc:494-513 [Vecf v = w.col(num)] *)
  Definition col (s : st) (v w : nat) (num : Z) : res st :=
    let* im := impl_of s w in
    if nc im <? num then Exc else
    Ok (bind_new s v (mem s) (mkimpl SEGMENT (nr im) 1 (ptr_at (fuel_of s) s im 0 num) (env s w) (0, 0))).
  (** tableau.cc:545-556 [Tab v = w.block(r0, nr, c0, nc)]; the scalar type of the
      result is left to its default (float): the conversion to TabT<T,2> throws
      when T is not float ([isf] false) *)
  Definition block (isf : bool) (s : st) (v w : nat) (r0 rn c0 cn : Z) : res st :=
    let* im := impl_of s w in
    if isf then
      Ok (bind_new s v (mem s) (mkimpl BLOCK rn cn (ptr_at (fuel_of s) s im r0 c0) (env s w) (r0, c0)))
    else Exc.

  (** tableau.hpp:1146-1156 and 1170-1180 [v(i)], [v(i) = a] *)
  Definition get (s : st) (v : nat) (i : Z) : res A :=
    let* im := impl_of s v in
    if (i <? 0) || (nr im <=? i) then Exc else
    load (mem s) (match ptr im with Some (b, o) => Some (b, o + i) | None => None end).
  Definition set (s : st) (v : nat) (i : Z) (a : A) : res st :=
    let* im := impl_of s v in
    if (i <? 0) || (nr im <=? i) then Exc else
    let* m := store (mem s) (match ptr im with Some (b, o) => Some (b, o + i) | None => None end) a in
    Ok (mkst m (impls s) (env s)).
  (** tableau.hpp:1158-1168 [v(i, j)] of a constant array: checked; the stride is
      the number of rows of v itself, even when v is a block of a larger array *)
  Definition get2 (s : st) (v : nat) (i j : Z) : res A :=
    let* im := impl_of s v in
    if (i <? 0) || (nr im <=? i) || (j <? 0) || (nc im <=? j) then Exc else
    load (mem s) (match ptr im with Some (b, o) => Some (b, o + (i + j * nr im)) | None => None end).
  (** tableau.hpp:1141-1144 [v(i, j) = a]: not checked *)
  Definition set2 (s : st) (v : nat) (i j : Z) (a : A) : res st :=
    let* im := impl_of s v in
    let* m := store (mem s) (match ptr im with Some (b, o) => Some (b, o + (i + j * nr im)) | None => None end) a in
    Ok (mkst m (impls s) (env s)).

  (** tableau.cc:701-711 resize: the kind of the Impl is kept; the old block is
      freed when the Impl owns it *)
  Definition set_impl (s : st) (m : list block_) (k : nat) (im : impl) : st :=
    mkst m (upd (impls s) k im) (env s).
  Definition cols_ (im : impl) : Z := if (nc im =? 1) && (nr im =? 0) then 0 else nc im.
  Definition free_ (m : list block_) (im : impl) : list block_ :=
    match ty im, ptr im with VALEUR, Some (b, _) => upd m b None | _, _ => m end.
  Definition resize (s : st) (v : nat) (n m : Z) : res st :=
    let* im := impl_of s v in
    if (nr im =? n) && (cols_ im =? m) then Ok s else
    let (r, c) := dims_of n m in
    let (m', p) := alloc (free_ (mem s) im) (r * c) in
    match env s v with
    | Some k => Ok (set_impl s m' k (mkimpl (ty im) r c p (enfant im) (blk im)))
    | None => UB
    end.
  (** tableau.cc:807-820 conservativeResize *)
  Definition cresize (s : st) (v : nat) (n m : Z) : res st :=
    let* im := impl_of s v in
    match ty im, env s v with
    | VALEUR, Some k =>
        let (r, c) := dims_of n m in
        let (m1, p) := alloc (mem s) (r * c) in
        let* m2 := memcpy m1 p (ptr im) (Z.min (n * m) (nelems im)) in
        Ok (set_impl s (free_ m2 im) k (mkimpl VALEUR r c p (enfant im) (blk im)))
    | VALEUR, None => UB
    | _, _ => Exc
    end.

  (** One statement of a program over array variables. *)
  Inductive op :=
  | Decl (v : nat) (n m : Z) | Copy (v w : nat) | Assign (v w : nat) | MoveAssign (v w : nat)
  | Segment (v w : nat) (i0 n : Z) | Tail (v w : nat) (n : Z) | Col (v w : nat) (c : Z)
  | Block (v w : nat) (r0 rn c0 cn : Z)
  | Set_ (v : nat) (i : Z) (a : A) | Set2 (v : nat) (i j : Z) (a : A)
  | Resize (v : nat) (n m : Z) | CResize (v : nat) (n m : Z).
  Definition exec (isf : bool) (s : st) (o : op) : res st :=
    match o with
    | Decl v n m => decl s v n m
    | Copy v w => copy s v w
    | Assign v w => assign s v w
    | MoveAssign v w => move_assign s v w
    | Segment v w i0 n => segment s v w i0 n
    | Tail v w n => tail s v w n
    | Col v w c => col s v w c
    | Block v w r0 rn c0 cn => block isf s v w r0 rn c0 cn
    | Set_ v i a => set s v i a
    | Set2 v i j a => set2 s v i j a
    | Resize v n m => resize s v n m
    | CResize v n m => cresize s v n m
    end.
  Fixpoint exec_all (isf : bool) (s : st) (os : list op) : res st :=
    match os with [] => Ok s | o :: t => let* s1 := exec isf s o in exec_all isf s1 t end.
End Tab.
Arguments st : clear implicits.
Arguments op : clear implicits.
