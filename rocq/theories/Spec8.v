(** Specification vocabulary: memory *)
From Coq Require Import List.
From Verif Require Import Py M_heap.
(** array [l] of the memory holds [b] *)
Definition holds (m : mem) (l : loc) (b : buf) : Prop := nth_error m l = Some b.
(** every array there was still holds what it held *)
Definition unchanged (m m' : mem) : Prop := forall l b, holds m l b -> holds m' l b.
(** the same, except possibly for the arrays in [p] *)
Definition unchanged_except (p : loc -> Prop) (m m' : mem) : Prop := forall l b, ~ p l -> holds m l b -> holds m' l b.
(** the error argument as a value *)
Definition err_holds (m : mem) (e : errloc) (v : M_chi2.errarg) : Prop :=
  match e, v with
  | ELNone, M_chi2.ErrNone => True
  | ELScalar s, M_chi2.ErrScalar s' => s = s'
  | ELArr l, M_chi2.ErrArr a => holds m l (BReal a)
  | _, _ => False
  end.
Definition opt_holds (m : mem) (o : option loc) (v : option (arr num)) : Prop :=
  match o, v with None, None => True | Some l, Some a => holds m l (BReal a) | _, _ => False end.
