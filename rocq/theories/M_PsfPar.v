(** Model of the worker processes of class ZernPSF (zernpsf.py 657-762): initialize_parallel_workers, get_psf_point_r_parallel,
    get_kernel_parallel and deinitialize_workers as clients of DispenserManager (M_Disp). M_PsfClass.get_kernel_parallel is the same
    method with the answers of the manager replaced by the values they should have. Timing and prints are not modelled. *)
From Coq Require Import Reals.
From Verif Require Import Py M_Radial M_Coeffs M_Sum M_Psf M_PsfClass M_Disp SpecDisp SpecDispM SpecCoeffs M_Geo.
Local Open Scope R_scope.

(** what travels through the queues: "Started"; an entry of the placeholder list (670); (phi, (zernpol, r, theta, alpha, n_int_r_points)) (696-697); a complex number *)
Inductive pval := VStarted | VPlaceholder (i : Z) | VJob (phi : R) (p : Z * Z) (r theta alpha : R) (n_int_r : Z) | VNumber (c : cplx).

(** calc_psfs.py 174-190: radial_integral_s; a tuple of six numbers cannot be unpacked into two *)
Definition radial_integral_s (rnd : R -> R) (fuel : nat) (v : pval) : M cplx :=
  match v with
  | VJob phi p r theta alpha n_int_r => radial_integral rnd (phase_pol fuel p alpha) n_int_r r theta phi
  | VPlaceholder _ => mlift (Raise ValueError)
  | _ => mlift (Raise TypeError)
  end.
(** a worker process runs it with caches of its own, which depend on the jobs it had before: any state that calls can leave behind *)
Definition worker_function (rnd : R -> R) (fuel : nat) (f : pval -> option pval) : Prop :=
  forall v, exists ws, reachable ws /\ f v = match snd (radial_integral_s rnd fuel v ws) with Ok c => Some (VNumber c) | Raise _ => None end.

(** 670-672: the list given to DispenserManager(compute_func=radial_integral_s, n_workers=4) *)
Definition placeholders : list pval := map VPlaceholder (zrange 0 10).
(** 695-697 and 702: the parameter lists of one point *)
Definition jobs_even (p : Z * Z) (alpha : R) (n_int_r n_int_phi : Z) (r theta : R) : list pval :=
  map (fun i => VJob (IZR i * (2 * PI / IZR n_int_phi)) p r theta alpha n_int_r) (range2 2 (n_int_phi - 2)).
Definition jobs_odd (p : Z * Z) (alpha : R) (n_int_r n_int_phi : Z) (r theta : R) : list pval :=
  map (fun i => VJob (IZR i * (2 * PI / IZR n_int_phi)) p r theta alpha n_int_r) (range2 1 (n_int_phi - 1)).
(** 735-741: the points of the kernel, row by row: k*NA*pixel_size*pixel_dist and arctan2 + pi *)
Definition kernel_points (o : zernpsf) : list (list (R * R)) :=
  let size := kernel_size o in
  map (fun i => map (fun j =>
      let di := IZR (i - size / 2) in let dj := IZR (j - size / 2) in
      (k o * NA o * pixel_size o * sqrt (di * di + dj * dj), arctan2 di dj + PI)) (zrange 0 (Z.to_nat size))) (zrange 0 (Z.to_nat size)).
(** 742-743: a point asks twice: update_params(even), compute(), update_params(odd), compute() *)
Definition kernel_jobs (o : zernpsf) : list (list pval) :=
  match zpol o with
  | Some p => flat_map (fun pt => [jobs_even p (alpha o) (n_int_r o) (n_int_phi o) (fst pt) (snd pt);
                                   jobs_odd p (alpha o) (n_int_r o) (n_int_phi o) (fst pt) (snd pt)]) (concat (kernel_points o))
  | None => []
  end.

(** 700 and 704: np.sum(np.asarray(compute())). compute() of a closed manager returns None, and 2.0*None (709) raises TypeError; an array
    cannot be made of complex numbers and tuples. *)
Fixpoint numbers (l : list (option pval)) : option (list cplx) :=
  match l with
  | [] => Some []
  | Some (VNumber c) :: tl => match numbers tl with Some cs => Some (c :: cs) | None => None end
  | _ => None
  end.
Definition sum_results (a : outcome pval) : res cplx :=
  match a with
  | OResult l => match numbers l with Some cs => Ok (csum cs) | None => Raise ValueError end
  | ONone => Raise TypeError
  | OError e => Raise e
  end.
(** 676-709 with a manager, given what its two compute() calls answered *)
Definition point_told (rnd : R -> R) (fuel : nat) (p : Z * Z) (alpha : R) (n_int_r n_int_phi : Z) (r theta : R) (even odd : outcome pval) : M R :=
  if (n_int_phi =? 0)%Z then mlift (Raise ZeroDivisionError)
  else
    run even_sum <- mlift (sum_results even);
    run odd_sum <- mlift (sum_results odd);
    simpson_end rnd (phase_pol fuel p alpha) n_int_r r theta (2 * PI / IZR n_int_phi) even_sum odd_sum.
(** 734-743: the points take the answers in turn, two each; [None]: an answer is still awaited *)
Fixpoint row_told (point : R -> R -> outcome pval -> outcome pval -> M R) (pts : list (R * R)) (told : list (outcome pval)) : M (option (list R * list (outcome pval))) :=
  match pts with
  | [] => mret (Some ([], told))
  | pt :: pts' =>
      match told with
      | a :: b :: told' =>
          run v <- point (fst pt) (snd pt) a b;
          run x <- row_told point pts' told';
          mret (match x with Some (vs, rest) => Some (v :: vs, rest) | None => None end)
      | a :: [] => match sum_results a with Raise e => mlift (Raise e) | Ok _ => mret None end
      | [] => mret None
      end
  end.
Fixpoint rows_told (point : R -> R -> outcome pval -> outcome pval -> M R) (rows : list (list (R * R))) (told : list (outcome pval)) : M (option (list (list R))) :=
  match rows with
  | [] => mret (Some [])
  | r :: rows' =>
      run x <- row_told point r told;
      match x with
      | Some (vs, rest) => run y <- rows_told point rows' rest; mret (match y with Some l => Some (vs :: l) | None => None end)
      | None => mret None
      end
  end.
(** 711-750 for an object with a manager, given the answers [told] that came so far: Ok None - still waiting *)
Definition kernel_told (rnd : R -> R) (fuel : nat) (normalize : bool) (o : zernpsf) (told : list (outcome pval)) : M (option kernel) :=
  match zpol o with
  | Some p =>
      if (kernel_size o <? 3)%Z then mlift (Raise TypeError)
      else
        run x <- rows_told (point_told rnd fuel p (alpha o) (n_int_r o) (n_int_phi o)) (kernel_points o) told;
        mret (option_map (finish normalize) x)
  | None => mret (Some (finish normalize [[0; 0; 0]; [0; 0; 0]; [0; 0; 0]]))
  end.

(** ** several objects in one program *)
(** PInit o: initialize_parallel_workers() of an object without a manager (668: nothing happens in the Airy case; with a manager nothing happens either);
    PKernel k o: get_kernel_parallel() of the object in state o whose manager is the k-th made *)
Inductive pcall := PInit (o : zernpsf) | PKernel (k : nat) (o : zernpsf).
Definition init_calls (has_manager : bool) (o : zernpsf) : list (mcall pval) :=
  if (negb has_manager && negb (airy o))%bool then [MNew (Some 4%nat) placeholders] else [].
Definition kernel_calls (k : nat) (o : zernpsf) : list (mcall pval) := flat_map (fun ps => [MUpdate k ps; MCompute k]) (kernel_jobs o).
Definition pcall_calls (c : pcall) : list (mcall pval) := match c with PInit o => init_calls false o | PKernel k o => kernel_calls k o end.
Definition session_calls (l : list pcall) : list (mcall pval) := flat_map pcall_calls l.
(** 752-762 *)
Definition deinit_calls (has_manager : bool) : list (call pval) := if has_manager then [CClose] else [].
(** the same calls of an object with the only manager *)
Definition kernel_calls_one (o : zernpsf) : list (call pval) := flat_map (fun ps => [CUpdate ps; CCompute]) (kernel_jobs o).
