(** C87: masked arrays in convolvend *)
From Coq Require Import ZArith Lia List Reals Lra Bool.
From Coquelicot Require Import Complex.
From Verif Require Import Base NDim DFT Kernel Num Py M_fast_ffts M_shift M_convolve M_masked Spec Spec2 Spec3 P_convolve.
Import ListNotations.
Open Scope R_scope.

(** what the comment in the code promises: a masked pixel is treated as NaN *)
Definition masked_as_nan (d : arr num) (m : list Z -> bool) : arr num := Arr (shape d) (fun i => if m i then NaN else get d i).

(** *** no outcome depends on a mask: whatever pixels of the image or the kernel are masked, the outcome (array, transform or exception) is that
    of the unmasked data *)
Theorem C87_masks_are_ignored :
  forall env nc lio da ma dk mk b v crop rf fs fp pp ia ie mw nk unp nt,
  let call := fun A K => convolvend_any env nc lio A K b v crop rf fs fp pp ia ie mw nk unp nt in
  call (Masked da ma) (Masked dk mk) = call (Plain da) (Plain dk) /\
  call (Masked da ma) (Plain dk) = call (Plain da) (Plain dk) /\
  call (Plain da) (Masked dk mk) = call (Plain da) (Plain dk) /\
  call (Plain da) (Plain dk) = convolvend env nc lio da dk b v crop rf fs fp pp ia ie mw nk unp nt.
Proof. intros. repeat split. Qed.
Print Assumptions C87_masks_are_ignored.

(** *** so masked (invalid) values leak into the result: under a delta kernel the value below the mask comes out, where the promised
    conversion gives 0 *)
Theorem C87_masked_pixels_are_nan_refuted :
  forall env (data kernel : arr num) mask b v fftshift fft_pad psf_pad min_wt use_np nthreads,
  pos_shape (shape data) -> pos_shape (shape kernel) -> length (shape data) = length (shape kernel) -> shape data <> [] ->
  b <> BExtend ->
  get kernel (kernel_centre (shape kernel)) = Fin 1 ->
  (forall k, inb (shape kernel) k -> k <> kernel_centre (shape kernel) -> get kernel k = Fin 0) ->
  let call := fun A => convolvend_any env true true A (Plain (of_num kernel)) b (Fin v) true false fftshift fft_pad psf_pad
                         false false min_wt NkFalse use_np nthreads in
  exists leaked promised,
    call (Masked (of_num data) mask) = Ok (ConvReal leaked) /\ call (Plain (of_num (masked_as_nan data mask))) = Ok (ConvReal promised) /\
    forall x r, inb (shape data) x -> get data x = Fin r -> mask x = true -> get leaked x = Fin r /\ get promised x = Fin 0.
Proof.
  intros env data kernel mask b v fs fp pp mw unp nt Hd Hk Hl Hne Hb Hc Hz call.
  assert (Hb' : boundary_ok b) by exact Hb.
  destruct (C28_delta_kernel_is_identity env data kernel b v fs fp pp mw unp nt Hd Hk Hl Hne Hb' Hc ltac:(intros; left; auto)) as [o1 [E1 [S1 G1]]].
  destruct (C28_delta_kernel_is_identity env (masked_as_nan data mask) kernel b v fs fp pp mw unp nt Hd Hk Hl Hne Hb' Hc ltac:(intros; left; auto)) as [o2 [E2 [S2 G2]]].
  exists o1, o2. split; [exact E1|]. split; [exact E2|]. intros x r Hx Hr Hm. rewrite (G1 x Hx), (G2 x Hx). unfold masked_as_nan. cbn [get]. rewrite Hr, Hm. split; reflexivity.
Qed.
Print Assumptions C87_masked_pixels_are_nan_refuted.

Example C87_nonvacuous :
  let d := mk1 3 (fun x => Fin (IZR x + 5)) in let k := mk1 1 (fun _ => Fin 1) in let m := fun i => match i with [1%Z] => true | _ => false end in
  exists leaked promised,
    convolvend_any false true true (Masked (of_num d) m) (Plain (of_num k)) BWrap (Fin 0) true false true true true false false 0 NkFalse true 1 = Ok (ConvReal leaked) /\
    convolvend_any false true true (Plain (of_num (masked_as_nan d m))) (Plain (of_num k)) BWrap (Fin 0) true false true true true false false 0 NkFalse true 1 = Ok (ConvReal promised) /\
    get leaked [1%Z] = Fin 6 /\ get promised [1%Z] = Fin 0.
Proof.
  intros d k m.
  destruct (C87_masked_pixels_are_nan_refuted false d k m BWrap 0 true true true 0 true 1) as [l [p [E1 [E2 G]]]];
    try reflexivity; try discriminate; try (repeat constructor; lia); auto.
  - intros [|a [|? ?]] H N; cbn in H; try tauto. exfalso. apply N. cbn. f_equal. lia.
  - exists l, p. split; [exact E1|]. split; [exact E2|]. apply G; [cbn; lia| |reflexivity]. cbn. f_equal. lra.
Qed.
