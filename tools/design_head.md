# Formal model of sklykov/zernpy in Rocq (Coq 8.16.1)

Source modelled: `/repo/src/zernpy` at the pinned commit. Line references in the Coq comments are to
files under that directory. This file is generated by `tools/design.py` from `tools/design_head.md`,
`tools/design_tail.md`, `properties.jsonl` and `MANIFEST.json`.

## Layout of `rocq/theories`

| files | content |
|---|---|
| `Py.v` | exceptions as results (`Ok`/`Raise`), Python ranges, dictionaries |
| `Spec*.v` | the specification: what the English property means. No formulas copied from the code. `SpecIndex` valid orders and the three index conventions as orders; `SpecRadial` the factorial sum; `SpecSum`, `SpecGeo`, `SpecPhases`, `SpecCrop`, `SpecFit` (least squares), `SpecPsf` (the quadrature sum), `SpecDiff` (the diffraction integral, Bessel's integral), `SpecImg`, `SpecDisp` and `SpecThreads` (schedules, fairness), `SpecPsfClass` and `SpecCoeffs` (objects / cache states that some history of calls reaches), `SpecJson`, ... |
| `M_*.v` | the model: one Gallina definition per Python function, citing file and lines |
| `RadialMath.v`, `L_*.v` | lemmas and proofs |
| `P_*.v` | the property theorems, each followed by `Print Assumptions`, and `Example`s that meet the hypotheses of each theorem with concrete data |

| Python file | model |
|---|---|
| `zernikepol.py` (ZernPol, generate_polynomials, generate_phases_image, generate_random_phases, fit_polynomials*) | `M_Index`, `M_Init`, `M_Coeffs` (evaluation), `M_Sum`, `M_Polar`, `M_Phases`, `M_Fit` |
| `calculations/calc_zernike_pol.py` | `M_Radial`, `M_Coeffs` |
| `calculations/find_pols_coeffs.py` | `M_Coeffs` (sequential, caches as state), `M_Threads` (atomic actions) |
| `calculations/fit_zernike_pols.py` | `M_Crop`, `M_Fit` |
| `calculations/calc_psfs.py` | `M_Psf`, `M_Img`, `M_PsfClass` (save/read), `M_Json` (text of the files) |
| `calculations/calc_psfs_numba.py` | `M_Numba` |
| `zernpsf.py` (ZernPSF) | `M_PsfClass`, `M_Img` |
| `utils/intmproc.py` | `M_Disp` |
| `props/properties.py` | `M_Init` (names), `M_Geo` |

## Modelling conventions

* Python `int` -> `Z` (unbounded), `//` and `%` by a positive divisor -> `Z.div`, `Z.modulo` (both floor).
* Python `float`/numpy float64 -> Coq `R` (exact arithmetic) unless a file says otherwise. Where rounding
  decides the property (end point of `arange`, node placement, radii of cropped images, casts of convolved
  images, decimal text of floats) the operation carries an explicit rounding function, instantiated with the
  identity and with Flocq's `round radix2 (FLT_exp -1074 53) ZnearestE` (no overflow: values stay small).
  NaN, infinities and non-finite inputs are constructors of `M_Sum.fl` where a property is about them.
* Exceptions are values `Raise e`; warnings and prints are not modelled.
* numpy vectors -> lists, 2-D arrays -> lists of rows.
* Python's recursion limit is the argument `fuel`; theorems hold for every value of it.
* External routines (`numpy.linalg.lstsq`, `scipy.ndimage.convolve`, `scipy.special.jv`, `numpy.round`, the
  decimal printing of floats, `random`) are universally quantified functions with their documented contract as
  a visible hypothesis of the theorem; where it is not obvious that the contract can be met, a theorem exhibits
  a function that meets it (`C28_contract_satisfiable`, `SpecJson`).
* A property that the code violates has status `partial`: the strongest true statement is proved
  (`..._partial` or an exact characterisation) and the violation is a theorem `..._refuted` about the same model.
