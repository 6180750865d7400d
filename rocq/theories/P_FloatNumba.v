(** Property theorems C69: the accelerated PSF calculation in binary64. *)
From Coq Require Import Reals Lra Lia.
From Flocq Require Import Core.
From Verif Require Import Py SpecIndex SpecRadial M_Radial M_Coeffs SpecCoeffs M_Sum SpecSum L_Sum M_Polar M_Geo SpecGeo M_Psf SpecPsf SpecDiff L_Psf L_PsfKernel P_Psf P_Conv SpecFloat M_Float L_Float
  SpecFloatPsf M_FloatPsf L_FPsf8 P_FPsf M_Numba L_Numba M_FloatNumba L_FloatNumba.
Import ListNotations.
Local Open Scope R_scope.

(** the orders the accelerated calculation handles: n <= 10 without |m| = n for n = 8, 9, 10 (for these see C36) *)
Definition compiled (p : Z * Z) : Prop := let '(m, n) := p in valid m n /\ (n <= 10)%Z /\ ~ ((8 <= n)%Z /\ Z.abs m = n).
Lemma compiled_ok p : compiled p -> comp_ok p.
Proof. destruct p as [m n]. intros H. exact H. Qed.

(** without rounding, the value of the compiled function is that of C36, for all orders (also those which it gets wrong) *)
Theorem C69_unrounded : forall p r theta, fzernpol_value (fun x => x) powerRZ cos sin p r theta = zernpol_value p r theta.
Proof.
  intros [m n] r theta. unfold fzernpol_value, zernpol_value.
  assert (T : radial_table_comp m n r = option_map (fun e => feval (fun x => x) powerRZ e r) (comp_src m n)).
  { unfold radial_table_comp, comp_src.
    repeat match goal with |- (if ?b then _ else _) = _ => destruct b; [cbn [option_map feval]; f_equal; try reflexivity; rewrite ?(pow_powerRZ r); reflexivity|] end. reflexivity. }
  rewrite T. destruct (comp_src m n); [reflexivity|]. cbn [option_map]. reflexivity.
Qed.
Print Assumptions C69_unrounded.

(** With the same library functions (and pow(x, 0) = 1) both calculations perform the same operations: every bit of the result
    is the same, for every way of rounding. *)
Theorem C69_same_bits : forall rnd pw fcos fsin npsum fhyp fsq fatan2 fuel p px alpha wavelength NA n_r n_phi (normalize : bool) kernel_size s,
  (forall x, pw x 0%Z = 1) -> compiled p -> okp fuel p ->
  fget_psf_kernel_comp rnd pw fcos fsin npsum fhyp fsq fatan2 (Single p) px (AFloat alpha) wavelength NA n_r n_phi normalize kernel_size s
  = fget_psf_kernel rnd pw fcos fsin npsum fhyp fsq fatan2 fuel p px alpha wavelength NA n_r n_phi normalize kernel_size Vectorized s.
Proof.
  intros rnd pw fcos fsin npsum fhyp fsq fatan2 fuel p px alpha wavelength NA n_r n_phi normalize kernel_size s P0 C (V & F). symmetry. apply kernel_same; [exact P0|apply compiled_ok, C|]. destruct V as (N0 & _). lia.
Qed.
Print Assumptions C69_same_bits.
Theorem C69_same_bits_list : forall rnd pw fcos fsin npsum fhyp fsq fatan2 fuel ps amps px wavelength NA n_r n_phi (normalize : bool) kernel_size s,
  (forall x, pw x 0%Z = 1) -> Forall compiled ps -> Forall (okp fuel) ps -> ps <> [] ->
  fget_psf_kernel_comp rnd pw fcos fsin npsum fhyp fsq fatan2 (Several ps) px (AArr amps) wavelength NA n_r n_phi normalize kernel_size s
  = fget_psf_kernel_zerns rnd pw fcos fsin npsum fhyp fsq fatan2 fuel ps amps px wavelength NA kernel_size n_r n_phi normalize s.
Proof.
  intros rnd pw fcos fsin npsum fhyp fsq fatan2 fuel ps amps px wavelength NA n_r n_phi normalize kernel_size s P0 C OK NE. symmetry. apply kernels_same; [exact P0| |].
  - eapply Forall_impl; [|exact C]. apply compiled_ok.
  - destruct OK as [|q qs (V & F) _]; [elim NE; reflexivity|]. destruct V as (N0 & _). lia.
Qed.
Print Assumptions C69_same_bits_list.

(** with any accurate library functions: the accelerated kernel is close to the diffraction integral *)
Theorem C69_kernel : forall pw fcos fsin npsum fhyp fsq fatan2 p alpha px wavelength NA n_r n_phi (normalize : bool) kernel_size s, numpy64 pw fcos fsin npsum fhyp fsq fatan2 ->
  (forall x, pw x 0%Z = 1) -> reachable s -> compiled p -> (20 <= n_r <= 2 ^ 24)%Z -> (36 <= n_phi <= 2 ^ 24)%Z -> ordinary wavelength -> ordinary NA -> ordinary px -> (3 <= kernel_size < 2 ^ 53)%Z ->
  exists K v, snd (fget_psf_kernel_comp near64 pw fcos fsin npsum fhyp fsq fatan2 (Single p) px (AFloat alpha) wavelength NA n_r n_phi normalize kernel_size s) = Ok K /\
    let size := made_odd kernel_size in let amps := [near64 (alpha / wavelength)] in holds_b64 normalize K size v /\
    forall i j rho t, (0 <= i < size)%Z -> (0 <= j < size)%Z -> polar (IZR (size / 2 - j)) (IZR (size / 2 - i)) rho t ->
      let r := 2 * PI / wavelength * NA * px * rho in
      Rabs (v i j - diffraction_integral (fun x phi => zsum amps [p] x phi) r t)
        <= accuracy n_r n_phi (steep_r amps [p]) (steep_t amps [p]) r + rounding n_r n_phi amps [p] (steep_t amps [p]) r.
Proof.
  intros pw fcos fsin npsum fhyp fsq fatan2 p alpha px wavelength NA n_r n_phi normalize kernel_size s NP P0 Hs C NR NPH OW ON OP KS.
  assert (OK : okp 1000 p). { destruct p as [m n]. destruct C as (V & L & _). split; [exact V|]. cbn [snd]. lia. }
  rewrite (C69_same_bits near64 pw fcos fsin npsum fhyp fsq fatan2 1000 p px alpha wavelength NA n_r n_phi normalize kernel_size s P0 C OK).
  apply C59_kernel; assumption.
Qed.
Print Assumptions C69_kernel.
Theorem C69_kernel_list : forall pw fcos fsin npsum fhyp fsq fatan2 ps amps px wavelength NA n_r n_phi (normalize : bool) kernel_size s, numpy64 pw fcos fsin npsum fhyp fsq fatan2 ->
  (forall x, pw x 0%Z = 1) -> reachable s -> Forall compiled ps -> ps <> [] -> length amps = length ps -> (length ps <= 2 ^ 20)%nat -> (20 <= n_r <= 2 ^ 24)%Z -> (36 <= n_phi <= 2 ^ 24)%Z ->
  ordinary wavelength -> ordinary NA -> ordinary px -> (1 <= kernel_size < 2 ^ 53)%Z ->
  exists K v, snd (fget_psf_kernel_comp near64 pw fcos fsin npsum fhyp fsq fatan2 (Several ps) px (AArr amps) wavelength NA n_r n_phi normalize kernel_size s) = Ok K /\
    let size := made_odd kernel_size in holds_b64 normalize K size v /\
    forall i j rho t, (0 <= i < size)%Z -> (0 <= j < size)%Z -> polar (IZR (size / 2 - j)) (IZR (size / 2 - i)) rho t ->
      let r := 2 * PI / wavelength * NA * px * rho in
      Rabs (v i j - diffraction_integral (fun x phi => zsum amps ps x phi) r t)
        <= accuracy n_r n_phi (steep_r amps ps) (steep_t amps ps) r + rounding n_r n_phi amps ps (steep_t amps ps) r.
Proof.
  intros pw fcos fsin npsum fhyp fsq fatan2 ps amps px wavelength NA n_r n_phi normalize kernel_size s NP P0 Hs C NE L KM NR NPH OW ON OP KS.
  assert (OK : Forall (okp 1000) ps). { eapply Forall_impl; [|exact C]. intros [m n] (V & L' & _). split; [exact V|]. cbn [snd]. lia. }
  rewrite (C69_same_bits_list near64 pw fcos fsin npsum fhyp fsq fatan2 1000 ps amps px wavelength NA n_r n_phi normalize kernel_size s P0 C OK NE).
  apply C59_kernel_list; assumption.
Qed.
Print Assumptions C69_kernel_list.

(** The normal calculation (any method, numpy's functions) and the accelerated calculation (numba's functions) agree up to twice the
    rounding errors: both are close to the same sum over the same nodes. *)
Lemma quadrature_okq pw fcos fsin npsum fhyp fsq fatan2 (NP : numpy64 pw fcos fsin npsum fhyp fsq fatan2) fuel p alpha n_r n_phi mt wl NA px size :
  okp fuel p -> (20 <= n_r <= 2 ^ 24)%Z -> (36 <= n_phi <= 2 ^ 24)%Z -> ordinary wl -> ordinary NA -> ordinary px -> (3 <= size < 2 ^ 53)%Z ->
  okq (fget_psf_kernel near64 pw fcos fsin npsum fhyp fsq fatan2 fuel p px alpha wl NA n_r n_phi false size mt)
    (fun K => exists v, holds_b64 false K (made_odd size) v /\ forall i j, (0 <= i < made_odd size)%Z -> (0 <= j < made_odd size)%Z ->
       let amps := [near64 (alpha / wl)] in let r := 2 * PI / wl * NA * px * L_PsfKernel.pix_d (made_odd size) i j in
       Rabs (v i j - psf_rnd near64 n_r n_phi (fun x phi => zsum amps [p] x phi) r (L_PsfKernel.pix_t (made_odd size) i j)) <= rounding n_r n_phi amps [p] (steep_t amps [p]) r).
Proof.
  intros OK1 NR NPH OW ON OP KS.
  assert (OK : Forall (okp fuel) [p]) by (constructor; [exact OK1|constructor]). assert (NE : [p] <> []) by discriminate.
  assert (KM : (length [p] <= 2 ^ 20)%nat). { cbn [length]. apply Nat.pow_le_mono_r with (b := 0%nat) (a := 2%nat) (c := 20%nat); lia. }
  assert (P0 : 0 < / 2 ^ 200) by (apply Rinv_0_lt_compat, pow_lt; lra). assert (W0 : wl <> 0) by (destruct OW; lra). assert (A0 : NA <> 0) by (destruct ON; lra).
  assert (Q := L_PsfKernel.odd_size_ge size). rewrite made_odd_eq in Q. set (sz := made_odd size) in *. set (amps := [near64 (alpha / wl)]).
  assert (L : length amps = length [p]) by reflexivity. assert (AT := np_arctan2 _ _ _ _ _ _ _ NP).
  unfold fget_psf_kernel. eapply isok_bindq; [apply L_Fit.isok_lift; destruct (Req_EM_T wl 0); [contradiction|reflexivity]|]. cbv zeta. rewrite made_odd_eq. fold sz.
  eapply isok_bindq; [apply L_Fit.isok_lift; destruct (Req_EM_T NA 0); [contradiction|reflexivity]|].
  eapply okq_bind; [apply fill_okq; [lia|]|].
  - intros i j Hi Hj. assert (SZ : (sz <= 2 ^ 53)%Z) by lia. destruct (L_FPsf6.pixel_theta_err fatan2 AT sz i j Hi Hj SZ) as (T7 & TE).
    apply (list_point_okq pw fcos fsin npsum fhyp fsq fatan2 NP fuel [p] amps OK NE L KM n_r n_phi NR NPH mt (2 * PI / wl * NA * px * L_PsfKernel.pix_d sz i j) (L_PsfKernel.pix_t sz i j)); [apply L_FPsf6.pixel_r_err; assumption|exact TE|exact T7].
  - intros l (v & -> & V). apply okq_ret. exists v. split; [apply ffinish_holds; lia|]. intros i j Hi Hj. apply V; assumption.
Qed.
Theorem C69_agree : forall pw fcos fsin npsum fhyp fsq fatan2 pw' fcos' fsin' npsum' fhyp' fsq' fatan2' mt fuel p alpha px wavelength NA n_r n_phi kernel_size s s',
  numpy64 pw fcos fsin npsum fhyp fsq fatan2 -> numpy64 pw' fcos' fsin' npsum' fhyp' fsq' fatan2' ->
  (forall x, pw' x 0%Z = 1) -> reachable s -> reachable s' -> compiled p -> okp fuel p -> (20 <= n_r <= 2 ^ 24)%Z -> (36 <= n_phi <= 2 ^ 24)%Z ->
  ordinary wavelength -> ordinary NA -> ordinary px -> (3 <= kernel_size < 2 ^ 53)%Z ->
  exists K K', snd (fget_psf_kernel near64 pw fcos fsin npsum fhyp fsq fatan2 fuel p px alpha wavelength NA n_r n_phi false kernel_size mt s) = Ok K /\
    snd (fget_psf_kernel_comp near64 pw' fcos' fsin' npsum' fhyp' fsq' fatan2' (Single p) px (AFloat alpha) wavelength NA n_r n_phi false kernel_size s') = Ok K' /\
    let size := made_odd kernel_size in let amps := [near64 (alpha / wavelength)] in square K size /\ square K' size /\
    forall i j rho t, (0 <= i < size)%Z -> (0 <= j < size)%Z -> polar (IZR (size / 2 - j)) (IZR (size / 2 - i)) rho t ->
      exists x x', entry K i j = Some (Fin x) /\ entry K' i j = Some (Fin x') /\
        Rabs (x - x') <= 2 * rounding n_r n_phi amps [p] (steep_t amps [p]) (2 * PI / wavelength * NA * px * rho).
Proof.
  intros pw fcos fsin npsum fhyp fsq fatan2 pw' fcos' fsin' npsum' fhyp' fsq' fatan2' mt fuel p alpha px wavelength NA n_r n_phi kernel_size s s' NP NP' P0 Hs Hs' C OK NR NPH OW ON OP KS.
  rewrite (C69_same_bits near64 pw' fcos' fsin' npsum' fhyp' fsq' fatan2' fuel p px alpha wavelength NA n_r n_phi false kernel_size s' P0 C OK).
  destruct (quadrature_okq _ _ _ _ _ _ _ NP fuel p alpha n_r n_phi mt wavelength NA px kernel_size OK NR NPH OW ON OP KS s Hs) as (_ & K & E & v & (SQ & EV) & V).
  destruct (quadrature_okq _ _ _ _ _ _ _ NP' fuel p alpha n_r n_phi Vectorized wavelength NA px kernel_size OK NR NPH OW ON OP KS s' Hs') as (_ & K' & E' & v' & (SQ' & EV') & V').
  exists K, K'. split; [exact E|]. split; [exact E'|]. cbv zeta in V, V' |- *. split; [exact SQ|]. split; [exact SQ'|]. intros i j rho t Hi Hj PO.
  exists (v i j), (v' i j). split; [apply EV; assumption|]. split; [apply EV'; assumption|]. specialize (V i j Hi Hj). specialize (V' i j Hi Hj).
  rewrite (L_PsfKernel.pix_rho _ i j rho t PO) in V, V'. apply Rabs_le_inv in V. apply Rabs_le_inv in V'. apply Rabs_le. lra.
Qed.
Print Assumptions C69_agree.

Definition pow64 (x : R) (k : Z) : R := near64 (powerRZ x k).
Example C69_nonvacuous : numpy64 pow64 (fun x => near64 (cos x)) (fun x => near64 (sin x)) sum64 (fun x y => near64 (sqrt (x * x + y * y))) (fun x => near64 (x * x)) (fun y x => near64 (arctan2 y x)) /\
  (forall x, pow64 x 0%Z = 1) /\ compiled (6, 10)%Z /\ compiled (0, 0)%Z /\ okp 1000 (6, 10)%Z /\ reachable import_state.
Proof.
  split; [exact C59_functions_exist|]. split; [intros x; unfold pow64; cbn [powerRZ]; apply (L_Polar.b64_IZR 1); lia|].
  split; [split; [split; [lia|split; [lia|exists 2%Z; lia]]|split; [lia|intros [_ H]; discriminate H]]|].
  split; [split; [split; [lia|split; [lia|exists 0%Z; lia]]|split; [lia|intros [H _]; lia]]|].
  split; [|constructor]. split; [split; [cbn; lia|split; [cbn; lia|exists 2%Z; reflexivity]]|cbn; lia].
Qed.
