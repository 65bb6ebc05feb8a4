(** CSR objects and the arrays they own: copy constructor, assignment, destructor. *)
From stdpp Require Import gmap.
From Verif Require Export Base Spec.

Section Obj.
Context {V : Type} (dflt : V).

(** An array obtained from my_malloc: of indices or of values.  utility.h 109-147 *)
Inductive ablock := BI (l : list nat) | BV (l : list V).
(** A pointer member.  CSR.h 112-114 *)
Inductive ptr := PUninit | PNull | PBlk (b : nat).
(** Live arrays by block number. *)
Notation heap := (gmap nat ablock).
(** Which number a new block gets: any function of the live blocks. *)
Context (pick : heap -> nat).

(** Members of CSR: CSR.h 108-115 *)
Record obj := mkObj { o_rows : nat; o_cols : nat; o_nnz : nat; o_rp : ptr; o_ci : ptr; o_va : ptr; o_zb : bool }.

(** my_malloc: utility.h 109-147 *)
Definition newI (n : nat) (h : heap) : ptr * heap := (PBlk (pick h), <[pick h := BI (replicate n 0)]> h).
(** my_malloc<NT>: utility.h 109-147 *)
Definition newV (n : nat) (h : heap) : ptr * heap := (PBlk (pick h), <[pick h := BV (replicate n dflt)]> h).
(** my_free: utility.h 150-162 *)
Definition free_ (p : ptr) (h : heap) : res heap :=
  match p with
  | PUninit => Err Uninit
  | PNull => Ok h
  | PBlk b => match h !! b with None => Err UseAfterFree | Some _ => Ok (delete b h) end
  end.
(** [p != NULL]: CSR.h 54, 56, 61 *)
Definition notNull (p : ptr) : res bool := match p with PUninit => Err Uninit | PNull => Ok false | PBlk _ => Ok true end.

(** Access to a block of indices / of values.  CSR.h 108-115. *)
Definition blkI (p : ptr) (h : heap) : res (nat * list nat) :=
  match p with
  | PUninit => Err Uninit
  | PNull => Err OutOfBounds
  | PBlk b => match h !! b with Some (BI l) => Ok (b, l) | Some (BV _) => Err OutOfBounds | None => Err UseAfterFree end
  end.
(** Access to a block of values: CSR.h 108-115 *)
Definition blkV (p : ptr) (h : heap) : res (nat * list V) :=
  match p with
  | PUninit => Err Uninit
  | PNull => Err OutOfBounds
  | PBlk b => match h !! b with Some (BV l) => Ok (b, l) | Some (BI _) => Err OutOfBounds | None => Err UseAfterFree end
  end.

(** std::copy(src, src + n, dst), n > 0: CSR.h 125-126, 130, 154-155, 159 *)
Definition copyI (src : ptr) (n : nat) (dst : ptr) (h : heap) : res heap :=
  for_ 0 n (fun i h =>
    '(_, s) <- blkI src h ;; x <- get s i ;;
    '(b, d) <- blkI dst h ;; d' <- set_ d i x ;; Ok (<[b := BI d']> h)) h.
(** std::copy of values: CSR.h 125-126, 154-155 *)
Definition copyV (src : ptr) (n : nat) (dst : ptr) (h : heap) : res heap :=
  for_ 0 n (fun i h =>
    '(_, s) <- blkV src h ;; x <- get s i ;;
    '(b, d) <- blkV dst h ;; d' <- set_ d i x ;; Ok (<[b := BV d']> h)) h.

(** Default constructor: CSR.h 25 *)
Definition defaultCtor : obj := mkObj 0 0 0 PUninit PUninit PUninit true.

(** Copy constructor: CSR.h 118-132 *)
Definition copyCtor (rhs : obj) (h : heap) : res (obj * heap) :=
  '(va, ci, h) <- (if 0 <? o_nnz rhs then
      let '(va, h) := newV (o_nnz rhs) h in
      let '(ci, h) := newI (o_nnz rhs) h in
      h <- copyV (o_va rhs) (o_nnz rhs) va h ;;
      h <- copyI (o_ci rhs) (o_nnz rhs) ci h ;;
      Ok (va, ci, h)
    else Ok (PUninit, PUninit, h)) ;;
  '(rp, h) <- (if 0 <? o_rows rhs then
      let '(rp, h) := newI (o_rows rhs + 1) h in
      h <- copyI (o_rp rhs) (o_rows rhs + 1) rp h ;;
      Ok (rp, h)
    else Ok (PUninit, h)) ;;
  Ok (mkObj (o_rows rhs) (o_cols rhs) (o_nnz rhs) rp ci va (o_zb rhs), h).

(** [operator=]: CSR.h 134-163.  [self]: [this == &rhs]. *)
Definition assign (self : bool) (this rhs : obj) (h : heap) : res (obj * heap) :=
  if self then Ok (this, h)
  else
    h <- (if 0 <? o_nnz this then h <- free_ (o_ci this) h ;; free_ (o_va this) h else Ok h) ;;
    h <- (if 0 <? o_rows this then free_ (o_rp this) h else Ok h) ;;
    '(va, ci, h) <- (if 0 <? o_nnz rhs then
        let '(va, h) := newV (o_nnz rhs) h in
        let '(ci, h) := newI (o_nnz rhs) h in
        h <- copyV (o_va rhs) (o_nnz rhs) va h ;;
        h <- copyI (o_ci rhs) (o_nnz rhs) ci h ;;
        Ok (va, ci, h)
      else Ok (o_va this, o_ci this, h)) ;;
    '(rp, h) <- (if 0 <? o_cols rhs then
        let '(rp, h) := newI (o_rows rhs + 1) h in
        h <- copyI (o_rp rhs) (o_rows rhs + 1) rp h ;;
        Ok (rp, h)
      else Ok (o_rp this, h)) ;;
    Ok (mkObj (o_rows rhs) (o_cols rhs) (o_nnz rhs) rp ci va (o_zb rhs), h).

(** [make_empty] and the destructor: CSR.h 51-68 *)
Definition freeIf (p : ptr) (h : heap) : res heap := t <- notNull p ;; if (t : bool) then free_ p h else Ok h.
(** make_empty: CSR.h 51-68 *)
Definition makeEmpty (this : obj) (h : heap) : res (obj * heap) :=
  h <- (if 0 <? o_nnz this then h <- freeIf (o_ci this) h ;; freeIf (o_va this) h else Ok h) ;;
  h <- (if 0 <? o_rows this then freeIf (o_rp this) h else Ok h) ;;
  Ok (mkObj 0 0 0 (o_rp this) (o_ci this) (o_va this) (o_zb this), h).
End Obj.
Arguments ablock : clear implicits.
