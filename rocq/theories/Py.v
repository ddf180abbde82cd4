(** Python / numpy vocabulary shared by all model files: exceptions as values, pixels with NaN,
    N-dimensional arrays.  Simplifications (see DESIGN.md): floating point numbers are exact reals, the only
    non-finite pixel value is NaN. *)
From Coq Require Import ZArith Lia List Reals Lra Bool.
From Coquelicot Require Import Complex.
From Verif Require Import Base NDim DFT Kernel.
Import ListNotations.
Open Scope Z_scope.

Inductive exn :=
| ValueError | TypeError | NameError | UnboundLocalError | IndexError | KeyError | AttributeError
| ZeroDivisionError | NotImplementedError | PlainException | OverflowError | MemoryError | ImportError | IOError
| Unmodelled.  (* marker: the call is outside what the model covers; no theorem concludes it *)

Inductive res (A : Type) := Ok (a : A) | Raise (e : exn).
Arguments Ok {A} a.
Arguments Raise {A} e.

Definition bind {A B} (m : res A) (f : A -> res B) : res B :=
  match m with Ok a => f a | Raise e => Raise e end.
Notation "'let!' x ':=' m 'in' k" := (bind m (fun x => k)) (at level 200, x pattern, right associativity).

(** a real pixel (np.float64 that is either finite or NaN) *)
Inductive num := Fin (r : R) | NaN.
Definition isnan (x : num) : bool := match x with NaN => true | _ => false end.
(** np.nan_to_num on one pixel *)
Definition nan0 (x : num) : R := match x with Fin r => r | NaN => 0%R end.

(** a complex pixel: numpy stores two floats; np.nan_to_num acts on each *)
Definition cnum : Type := num * num.
Definition cisnan (z : cnum) : bool := isnan (fst z) || isnan (snd z).
Definition cnan0 (z : cnum) : C := (nan0 (fst z), nan0 (snd z)).

(** numpy array: shape and element at an index tuple (only indices within the shape are meaningful) *)
Record arr (A : Type) := Arr { shape : list Z; get : list Z -> A }.
Arguments Arr {A} shape get.
Arguments shape {A} a.
Arguments get {A} a i.

Definition ndim {A} (a : arr A) : nat := length (shape a).
Definition amap {A B} (f : A -> B) (a : arr A) : arr B := Arr (shape a) (fun i => f (get a i)).
(** equality of arrays: same shape, same element at every index of the shape *)
Definition aeq {A} (a b : arr A) : Prop :=
  shape a = shape b /\ forall i, inb (shape a) i -> get a i = get b i.

Lemma aeq_refl {A} (a : arr A) : aeq a a.  Proof. split; auto. Qed.
Lemma aeq_sym {A} (a b : arr A) : aeq a b -> aeq b a.
Proof. intros [H1 H2]. split; [auto|]. intros i Hi. rewrite H2; auto. rewrite H1; auto. Qed.
Lemma aeq_trans {A} (a b c : arr A) : aeq a b -> aeq b c -> aeq a c.
Proof. intros [H1 H2] [H3 H4]. split; [congruence|]. intros i Hi. rewrite H2, H4; auto. rewrite <- H1; auto. Qed.

(** views of finite real / complex / real-with-NaN images as complex-with-NaN images (numpy upcasting) *)
Definition of_num (a : arr num) : arr cnum := amap (fun x => (x, Fin 0)) a.
Definition of_R (a : arr R) : arr cnum := amap (fun x => (Fin x, Fin 0)) a.
Definition of_C (a : arr C) : arr cnum := amap (fun z => (Fin (Re z), Fin (Im z))) a.
Definition RtoCa (a : arr R) : arr C := amap RtoC a.

(** a returned array is either of real or of complex dtype *)
Inductive anyarr := RealArr (a : arr R) | CplxArr (a : arr C).

(** all-in-shape test [np.any(p(a))] over index tuples *)
Fixpoint existsN (sh : list Z) (p : list Z -> bool) : bool :=
  match sh with
  | [] => p []
  | n :: sh' => existsb (fun i => existsN sh' (fun l => p (i :: l))) (map Z.of_nat (seq 0 (Z.to_nat n)))
  end.

Lemma existsN_spec sh p : existsN sh p = true <-> exists i, inb sh i /\ p i = true.
Proof.
  revert p; induction sh as [|n sh IH]; intros p; simpl.
  - split; [intros H; exists []; simpl; auto|intros [[|x i] [H1 H2]]; auto; destruct H1].
  - rewrite existsb_exists. split.
    + intros [x [Hx H]]. apply in_map_iff in Hx. destruct Hx as [k [Hk Hin]]. apply in_seq in Hin.
      apply IH in H. destruct H as [i [Hi Hp]]. exists (x :: i). split; auto. split; auto. lia.
    + intros [[|x i] [H1 H2]]; [destruct H1|]. destruct H1 as [Hx Hi].
      exists x. split; [|apply IH; exists i; auto].
      apply in_map_iff. exists (Z.to_nat x). split; [lia|]. apply in_seq. lia.
Qed.

Lemma existsN_false sh p : existsN sh p = false -> forall i, inb sh i -> p i = false.
Proof.
  intros H i Hi. destruct (p i) eqn:E; auto.
  assert (existsN sh p = true) by (apply existsN_spec; eauto). congruence.
Qed.

Definition any {A} (p : A -> bool) (a : arr A) : bool := existsN (shape a) (fun i => p (get a i)).

(** two-dimensional arrays *)
Definition ix2 (i : list Z) : Z * Z := match i with [y; x] => (y, x) | _ => (0, 0) end.
Definition mk2 {A} (ny nx : Z) (f : Z -> Z -> A) : arr A :=
  Arr [ny; nx] (fun i => match i with [y; x] => f y x | _ => f 0 0 end).
Definition mk1 {A} (n : Z) (f : Z -> A) : arr A :=
  Arr [n] (fun i => match i with [x] => f x | _ => f 0 end).
Definition g2 {A} (a : arr A) (y x : Z) : A := get a [y; x].
Definition g1 {A} (a : arr A) (x : Z) : A := get a [x].

Lemma inb2 ny nx i : inb [ny; nx] i -> exists y x, i = [y; x] /\ 0 <= y < ny /\ 0 <= x < nx.
Proof.
  destruct i as [|y [|x [|z i]]]; simpl; try tauto. intros [H1 [H2 _]]. exists y, x. auto.
Qed.
Lemma inb1 n i : inb [n] i -> exists x, i = [x] /\ 0 <= x < n.
Proof. destruct i as [|x [|z i]]; simpl; try tauto. intros [H _]. exists x; auto. Qed.
Lemma inb2_intro ny nx y x : 0 <= y < ny -> 0 <= x < nx -> inb [ny; nx] [y; x].
Proof. simpl; auto. Qed.
Lemma inb1_intro n x : 0 <= x < n -> inb [n] [x].
Proof. simpl; auto. Qed.

Definition ones (n : nat) : list Z := repeat 1 n.
