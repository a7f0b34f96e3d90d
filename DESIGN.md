# Formal model of qmeq: design

The code under study is `/repo/qmeq` (pure Python modules).  The model is written in
Rocq/Coq 8.16.1 under `rocq/theories`, logical root `Verif`.  `properties.jsonl` lists
the properties (C01, C02, ...), `MANIFEST.json` maps them to theorem names, and
`seeded/LOG.jsonl` records the mutation experiments.

## Modelling conventions

* **One Gallina function per Python function.**  Every definition cites file and lines.
  Python lists are Coq lists.  Errors (`IndexError`, `ValueError`, `None`) are `option` values;
  nothing is made true by a totalised default (where a default value is used, a range lemma shows
  it is never reached).
* **Python indexing.**  `py_nth : list A -> Z -> option A` has Python's negative wrap-around,
  because the kernel generators look up `statesdm[-1]`.
* **Numbers.**  Python floats are modelled by exact numbers: an arbitrary commutative ring `R`
  given as a record (`CRing.v`), complex numbers as pairs over it with conjugation.  All identities
  therefore hold over the reals (instance `R`), over the rationals (instance `Qc`, axiom free), and
  over the integers (instance `Z`, used for computing examples).  Statements about signs and about
  `exp` are over Coq's real numbers.  **Rounding is not modelled.**
* **numpy arrays with `+=`.**  A matrix is a function of its indices.  A code fragment that only
  performs `m[i,j] += v` is modelled by the list of `(i,j,v)` it executes, in order; the final
  matrix is the left fold of those updates over the zero matrix.
* **Library calls** (`eigh`, `lstsq`, `root`, quadrature, FFT, `lexsort`) are parameters of the
  model: theorems quantify over every possible result, constrained only by what the property states
  (e.g. "any exact solution of the system passed to the solver").
* Properties files state the theorems once more in terms of small specifications and print
  their assumptions.

## Trusted base

* Coq's kernel (8.16.1) and `coqchk`.
* Axioms: whatever `Print Assumptions` prints under each theorem in the `Properties*.v` files.
  Everything not using Coq's real numbers is `Closed under the global context`.  Theorems over `R` use
  the standard library's axioms of the real numbers
  (`ClassicalDedekindReals.sig_forall_dec`, `ClassicalDedekindReals.sig_not_dec`,
  `FunctionalExtensionality.functional_extensionality_dep`, `Classical_Prop.classic`).  No axiom is declared here.
* The correspondence between the Python text and the Gallina definitions (checked by reading only:
  the sandbox cannot run the code).

## Plan per property

| id | property | plan |
|---|---|---|
| C01 | State index round trip | `Bits.v`, `Indexing.v`: the two conversions, the five constructors of the state order; induction on nsingle and permutation arguments. |
| C02 | Charge blocks partition the states | `Indexing.v`: construct_chargelst as the append loop; membership/NoDup by loop invariants, contiguity by induction on the block list. |
| C03 | Spin-projection blocks partition the states | Same as C02 for szlst; arithmetic of sz_to_ind with truncating division over Z. |
| C04 | Total-spin blocks enumerate every state once | `Ssq*.v`: counts are differences of binomial products; unimodality by induction, telescoping; then enumeration loop invariant. |
| C05 | Quantum-number dictionaries are mutually inverse | `Qn.v`: dictionaries as association lists with overwrite; no key repeated. |
| C06 | Removing Fock states keeps the indexing a bijection | `Indexing.v`: state record with chargelst_lin, i, j; invariant over call lists; 'Lin' second call refuted by witness. |
| C07 | Zeroth-order density-matrix slots never collide | `DMIndex.v`: prefix sums of squares; block arithmetic. |
| C08 | Reduced density-matrix numbering is exact | `DMIndex.v`: add_elem loops; counter invariant; NoDup of combinations. |
| C09 | First-order density-matrix slots never collide | `DMIndex.v`: prefix sums of products of neighbouring lengths. |
| C10 | Density-matrix element counts | `DMIndex.v`, `Binom.v`: Vandermonde identity. |
| C11 | Charge sectors outside 0..nsingle are empty | `DMIndex.v`: py_nth on the list with the appended empty list. |
| C12 | Selecting states does not modify the state indexing | `DMIndex.v`: list objects with aliasing made explicit as a returned (new chargelst, statesdm) pair; false for two classes -> refuted with witness, proved for the third. |
| C13 | Tunnelling matrix is the second-quantised tunnelling operator | `Fock.v` (specification: occupation lists, annihilation/creation with Jordan-Wigner sign, CAR proved), `Operators.v` (construct_Tba), `PropOperators.v`. |
| C14 | Single-particle Hamiltonian is the second-quantised hopping operator | `Fock.v`, `Operators.v` (construct_ham_hopping), `PropOperators.v`. |
| C15 | Coulomb Hamiltonian is the second-quantised two-body operator | `Fock.v`, `Operators.v` (construct_ham_coulomb), `PropOperators.v`. |
| C16 | Electron-phonon matrix is the second-quantised coupling operator | `Fock.v`, `Operators.v` (elph_construct_Vbbp), `PropOperators.v`. |
| C17 | Spin operators satisfy the spin algebra | `SpinOps.v`: the loops as write lists on an integer matrix; `SpinFock.v` (spec): the spin operators from creation and annihilation operators and their commutator from the anticommutation relations; `PropSpinOps.v`: completeness of the intermediate block turns matrix products into operator products. |
| C18 | Hamiltonian history independence | **Proved** in `PropParams.v`: dictionaries as item lists (`Params.v`), each construct loop is a sum of contributions additive in the value (`ParamsProofs.v`); invariant over op lists. |
| C19 | Tunnelling history independence | **Proved** in `PropLeads.v`; tleads_array stale after change refuted. |
| C20 | Electron-phonon history independence | **Proved** in `PropLeads.v`. |
| C21 | Rotation to the eigenbasis is a similarity transformation | `Rotate.v` (model of construct_full_pmtr, rotate_Tba, elph_rotate_Vbbp), `RotateProofs.v`, `PropRotate.v`: C21_charge, C21_sz, C21_ssq, C21_phonons (block by block = at once), C21_hermitian_and_selection, C21_unitary, C21_similarity, C21_constructed, C21_sz_spin_flip_refuted. |
| C22 | Every state receives its own energy | `Energies.v`, `EnergiesProofs.v`, `PropEnergies.v`: write loops with errors, cells of `Qn.v`. |
| C23 | Pauli kernel conserves probability | `Layout.v` (what the kernel code reads), `Kernel.v` (calls made on the kernel handler, assembled as update lists), `PauliProofs.v`, `PropKernel.v`. |
| C24 | Pauli currents obey the conservation laws | `PauliProofs.v`, `PropKernel.v`. |
| C25 | Pauli equilibrium is exact | **Proved** in `PropRates.v` (tables in `Rates.v`): termwise detailed balance; `C25_error` bounds the effect of the overflow guard, `C25_beyond_guard_refuted` shows it. |
| C26 | Pauli rates are non-negative | **Proved** in `PropRates.v`: `C26_entries` gives every entry as a golden-rule rate. |
| C27 | Lindblad kernel and currents obey conservation laws | `KernelProofs.v` (kernel row = imaginary/minus real part of the complex right-hand side), `CohCurrents.v`, `PropKernel.v`. |
| C28 | 1vN kernel and currents obey conservation laws | `CohProofs.v`, `CohKernels.v` (links between neighbouring charges cancel), `CohCurrents.v`, `PropKernel.v`. |
| C29 | Redfield kernel and currents obey conservation laws | As C28. |
| C30 | Electron-phonon terms conserve probability and charge | **Proved** in `PropElPh.v` (model and operators in `ElPh.v`); `C30_use_all_states_refuted`: after remove_states then use_all_states si_elph keeps the selection and columns do not sum to 0. |
| C31 | Replacing one equation by normalisation loses nothing | `MatrixFree.v`: solve_kern; `C31_row_replacement`, `C31_extra_row`, `C31_solve_kern`. |
| C32 | Matrix-free residual agrees with the kernel | `MatrixFree.v`, `C32_matrix_free`. |
| C33 | Density matrix read-out is Hermitian | `CohProofs.v`, `PropKernel.v`. |
| C34 | Solving is repeatable | `SolveState.v`, `PropSolveState.v`: every history; refuted for remove_coherences and mfreeq switches. |
| C35 | Reported success means the requested solver ran | `SolveState.v`, `PropSolveState.v`: every history, methods solve and lsqr; refuted for 'lsmr' and unknown names. |
| C36 | Lead function bounds and symmetry | **Proved** in `PropRates.v` (model `SpecFunc.v` over R); `C36_fermi_symmetry_refuted` beyond the overflow guard. |
| C37 | Option validation is total and idempotent | `Validation.v`, `PropValidation.v`: every validator; the builder's combination partly refuted. |
| C38 | Sorting eigenstates is a permutation | `Energies.v`, `PropEnergies.v`: np.lexsort as a stable insertion sort, cached Ea_ext, histories; refuted right after remove_fock_states. |
| C39 | State selection by energy | `Selection.v`, `PropSelection.v`: every history of selections; refuted for dE <= 0. |
| C40 | Removing coherences | `Coherences.v`, `PropCoherences.v`; second call refuted. |
| C41 | RTD second-order kernel conserves probability | `RTDK.v` (model of the RTD kernels and currents), `PropRTD.v`: C41_columns, C41_kernel, C41_current for all diagram values; C41_energy (energy balance when all states are kept, C41_fresh), C41_energy_refuted. |
| C42 | 2vN kernel conserves probability and charge | `VN2K.v`, `PropVN2.v`: generate_kern, generate_current for any phi1 table, solve_kern; refuted where coherences carry no number. |
| C43 | Spin symmetry doubles the parameters | **Proved** in `PropSpin.v`; `SpinSwap.v` specifies the exchange of the spins on Fock space, `SpinProofs.v` dictionaries that are equal for both spins. |
| C44 | Lead parameter changes touch only the named leads | **Proved** in `PropLeadParams.v` (model `LeadParams.v`) for every history, and which arguments raise (`C44_rejects`); witnesses for what happens outside the accepted arguments. |
| C45 | Density-matrix element read-out by state | `Selection.v`, `PropSelection.v`: proved for considered states; refuted for removed states (stale dictdm) and for Pauli solutions. |
| C46 | The assembled kernels are the master equations | **Proved** in `PropMaster.v` (operators and master equations specified in the first section of `MasterEq.v`, with no index table, gate or block loop). Two-way exact for every included element. |
| C47 | Each lead's current is the change of the electron number caused by that lead | **Proved** in `PropMaster.v`; 1vN/Redfield energy currents use a separate integral table and have no such identity. |
| C49 | The electron-phonon terms are the phonon parts of the master equations | **Proved** in `PropElPh.v`; the gate `bpa == -1` of si_elph is the spec's `prate`/`htab` (0 for pairs si_elph does not number). |
| C50 | Phonon rates are non-negative and thermalise | **Proved** in `PropPhonon.v`; `C50_unresolved_refuted` for the clamp at eps_elph. |
| C51 | Without coherences the four approaches agree | **Proved** in `PropAgree.v`: diagonal of the master equations of C46 for a diagonal density matrix, with the tables of generate_fct. |
| C53 | The spin multiplets are complete | **Proved** in `PropMultiplets.v`. `Multiplets.v`: model; `LinR.v`, `Tower.v` (spec side): real linear algebra and ladder operators on a tower of blocks, the spectrum of S² from the commutator; `MultipletsSpin.v`: the code's matrices form such a tower (from C17); `MultipletsExec.v`: the loops fill every cell; `MultipletsProofs.v`: every cell of the result. |
| C48 | 'ssq' numbering: one number per multiplet | **Proved** in `PropSsqNumbering.v` for whole multiplets (statements over the quantum numbers of C05), `C48_broken_multiplet_refuted` otherwise. `SsqNumbering.v`: the log of add_elem calls with partners; `ssq_numbers`: every multiplet of the enumeration is complete. |
| C52 | First-order amplitudes are the integrals | **Proved** in `PropAmplitudes.v` (itype 0), `C52_wide_band_energy_refuted` for the constants of itype 1. `Integrals.v` (spec side): Riemann integral and principal value as relations, linearity, regular numerators, the pole. scipy's quad is a parameter assumed to return the principal value; `fermi_pv_exists` shows it exists. |
| C54 | With symmetry='spin' the Hamiltonian commutes with the spin | **Proved** in `PropSpinInvariant.v` (commutation, Hermiticity) and `PropSpinEigen.v` (the columns of C53 are eigenvectors in every block), three `_refuted` theorems for keys outside the documented order. `SpinInvariant.v` (spec side): which sums of spin-labelled two-body operators commute with S+ and S-; `SpinBlocks.v`: from the Fock space to the matrices of the blocks. |
| C55 | RTD off-diagonal corrections eliminate the 1vN coherences | **Proved** in `PropRTDCoh.v` (any ring, model `RTDK.v` and `RTDNd.v`, spec `MasterUnits.v` and the master equation of C28) and `PropRTDCohR.v` (the code's Fermi, phi and clipping functions over R); three `_refuted` theorems. |
| C56 | Independence of the choice of eigenvectors | **Proved** in `PropBasisR.v` (1vN, Redfield, Lindblad with the code's rate tables; Pauli for phases) on top of `BasisChange.v`/`PropBasis.v` (any ring, master equations of C46/C47), and `PropBasisVec.v` (two sets of eigenvectors give such a U). `C56_pauli_refuted` for rotations of degenerate states. |
| C57 | FFT Hilbert transform | **Proved** in `PropHilbert.v` (model `Hilbert.v`, `HilbertProofs.v`): exact principal value of the piecewise linear interpolant, over the reals, FFT by its definition |
| C58 | 2vN energy grid, interpolation, integration, range | **Proved** in `PropVN2Grid.v` (models `VN2Grid.v`, `VN2Iter.v`); `C58_range_refuted` for asymmetric bands |
| C59 | 2vN iteration solves the first-order equations | **Proved** in `PropVN2Iter.v`, `PropVN2Coh.v` (models `VN2Eq.v`, `VN2Solve.v`); `C59_coherence_refuted` for imaginary coherences |
| C60 | Repeated and continued 2vN calculations | **Proved** in `PropVN2Run.v` (model `VN2Run.v`); `C60_new_grid_refuted`, `C60_kpnt_zero_refuted` |
| C61 | The RTD integrals are continuous through their degenerate points | **Proved** in `PropRTDInt.v` (model `RTDInt.v`) |
| C62 | Accuracy of the complex polygamma function | **Proved** in `PropPolygamma.v` (model `Polygamma.v`, complex numbers `CplxR.v`); `C62_left_refuted` |
| C63 | diff_phi and diff2_phi are the derivatives of phi | **Proved** in `PropDigamma.v` (models `RTDInt.v`, `Polygamma.v`) |
| C64 | Ozaki expansion of tanh | **Proved** in `PropOzaki.v` (model `Ozaki.v`) |
| C65 | Compiled kernel handler, race freedom of the parallel kernel assembly | **Proved** in `PropCKernel.v` (model `CKernelHandler.v`, lemmas `CKernelProofs.v`, `CKernelNumbers.v`), with a finding |
| C66 | Band widths cancel in the RTD kernel and currents | **Proved** in `PropRTDBand.v` (any ring), `PropRTDBandR.v` (amplitudes of the builder), `PropRTDBandInt.v` (the code's integrals, model `RTDGen.v`), `PropRTDBandAll.v` (together); with a finding |
| C67 | Systems given by their many-body states | `ManyBody.v` (construction, selection, change of approach), `ManyBodyProofs.v` (any list of states gives a well-formed layout), `KernelGen.v` and `MasterGen.v` (the kernel theorems of C23, C24, C27-C33, C46, C47 for any layout), **proved** in `PropManyBody.v`; with findings |
| C68 | Band widths cancel in 1vN and Redfield with digamma integrals | `PropBandFirst.v` (tables shifted by a number of each lead, any ring), `PropBandFirstR.v` (the tables of `func_1vN`, systems of the builder), **proved**; with findings |
| C69 | Stationary Pauli occupations are probabilities | `Markov.v` (rate matrices: existence, uniqueness, positivity), `PropStationary.v` (the system of `solve_kern`, with and without phonons), **proved**; with a finding |
| C70 | Stationary Pauli currents obey the first and second law | `PropSecondLaw.v` (log-occupation potential, stationarity and detailed balance of `func_pauli`), **proved**; with a finding |
| C71 | A common shift of levels, chemical potentials and band edges changes nothing but energy currents | `PropGauge.v` (tables, kernels, currents), `PropGaugeHam.v` (Hamiltonian blocks, eigenvectors), **proved**; `C71_fixed_band_refuted` shows that a finite band has to move along |
| C72 | A common shift of levels and chemical potentials changes nothing in the RTD approach | `PropRTDShift.v` (models `RTDK.v`, `RTDNd.v`, `RTDGen.v`), **proved** |
| C73 | The compiled digamma and polygamma(U, 0) are the digamma function | `CDigamma.v` (model), `PropCDigamma.v` (derivative of the series against the trigamma expansion, mean value theorem, telescoping), **proved**; with a finding |
| C74 | A change of units and a phase of each lead are symmetries of the first-order approaches | `PropUnits.v`, `PropUnitsInt.v` (amplitudes, RTD integrals), `PropUnitsCase.v` (example), **proved**; with a finding |
| C75 | Leads with the same parameters may be mixed, split, merged, padded and renumbered | `PropMixLeads.v`, `PropMixLeadsAmp.v` (amplitudes, renumbering, examples), **proved** |
| C76 | The Lindblad kernel points into the positive density matrices, 1vN and Redfield do not | `PropPositive.v`, **proved**; with a finding |
| C77 | The single-particle matrices determine the many-body matrices | `SingleMtr.v` (model), `PropSingleMtr.v`, **proved**; with a finding |
| C78 | Stationary Pauli currents with phonon baths obey the first and second law | `PropPhononLaw.v`, **proved**; with a finding |

## Not modelled

* Floating-point rounding, numpy dtypes, performance code, plotting and printing; of the Cython mirrors (`c_*.pyx`) everything but the kernel handler,
  the parallel loop of generate_kern and the first-order coupling terms (C65).
* The numerical libraries themselves (eigenvalue, linear and root solvers, quadrature, FFT).
* `RTD.py set_Ozaki_params` and the choice of N in `BW_Ozaki` in `specfunc.py`; how well `_D_integral`, `_X_integral` (modelled in `RTDGen.v`) approximate the integrals.
* Thin variants of modelled functions: `use_Tba0` (leadstun.py), `ssquare_all_szlow`,
  `diagonalise_charge` (qdot.py), `use_Vbbp0` (baths.py).

## Findings (claims that are false of the code, each with a `_refuted` theorem)

* `C06_remove_lin_twice_refuted`: with indexing 'Lin' a second `remove_fock_states` call reads the
  renumbered `chargelst` as Lin indices (indexing.py 628, 640); a live Fock state keeps an index that
  no longer exists.
* `C12_pauli_refuted`, `C12_dmc_refuted`: `set_statesdm(self.chargelst)` of the Pauli and DMc classes
  appends `[]` to `chargelst` itself (indexing.py 721-722, 1099-1100).
* `C40_second_call_refuted`: `remove_coherences` renumbers `mapdm0` but not `inddm0` (various.py 258-282), so a
  second call compares the energies of other states: it keeps a pair it should exclude and excludes one it should
  keep.  `C40_negative_refuted`: with dE < 0 the diagonal elements are removed while `npauli` stays.
* `C31_unknown_method_refuted`: with `solmethod` not 'solve' or 'lsqr' ('lsmr' is accepted by `prepare_solver`)
  `solve_kern` assembles the system, calls no solver, copies the previous `sol0` and sets `success = True`
  (aprclass.py 318-325).
* `C30_use_all_states_refuted`: `BuilderElPh` does not override `use_all_states`, so after `remove_states` and
  `use_all_states` the phonon indexing `si_elph` still has the selection (builder_elph.py 142-149).  Lookups of the
  restored states alias other elements, and a column of the Pauli kernel does not sum to 0.
* `C36_fermi_symmetry_refuted`, `C25_beyond_guard_refuted`: fermi_func returns exactly 0 for x > 709.77 to avoid
  overflow of exp, so f(x)+f(-x) differs from 1 there and detailed balance is broken (by less than exp(-709.77); both
  effects are below the resolution of doubles next to 1).
* `C50_unresolved_refuted`: FuncPauliElPh clamps |E|/T to eps_elph, so emission over absorption is exp(eps_elph)
  instead of the Boltzmann factor for states closer than eps_elph kT; the Gibbs vector is then not stationary.

* `C18_add_own_dictionary_refuted`, `C19_…`, `C20_…`: `add(hsingle=qd.hsingle)` (same for tleads, velph) changes the
  dictionary while it is also the argument: stored values are doubled, the matrix is tripled.
* `C18_coulomb_zero_refuted`: make_coulomb_dict skips list rows with U = 0 also for `change`, so an interaction cannot be
  switched off with a list (hsingle, tleads and velph have add_zeros for this).
* `C19_array_stale_refuted`: `change(tleads=...)` does not rebuild `tleads_array`, which the RTD approach uses.
* `C19_update_spin_refuted`, `C20_update_spin_refuted`: update_Tba0/update_Vbbp0 with spin symmetry build the matrix
  from the raw argument, not from the doubled dictionary that they store.
* `C43_overwrite_refuted`: with symmetry='spin' a Coulomb element given in both orders (m,n,k,l), (n,m,l,k) keeps only
  the last value for opposite spins, silently.  `C43_complex_exchange_refuted`: with herm_c a complex exchange element
  breaks spin symmetry (why `C43_commutes` asks for real ones).
* `leadstun.py 348-353, 366-390`: a change by dictionary writes into a view of the stored array before it can raise, so a bad key leaves the first half changed and the spin partners not (`C44_failed_change_refuted`). A tuple of values is not recognised and sets all of them to zero (`C44_tuple_refuted`).
* `C39_zero_refuted`: `remove_states(dE)` with dE <= 0 removes every state, the ground state included (various.py 304 compares
  with a strict `<`).
* `C45_removed_refuted`: after `remove_states`, `get_phi0` of a removed state returns the probability of another state
  (dictdm keeps stale entries).  `C45_pauli_refuted`: `funcp.kerntype` is never 'Pauli' (funcprop.py default '2vN'), so
  `get_phi0` on a Pauli solution reads past the end of `phi0`.
* `C38_after_removal_refuted`: `remove_fock_states` leaves `states_order` as it was, so labels used by get_phi0/get_phi1 name
  states that no longer exist until sort_eigenstates is called again.  `sort_eigenstates(srt)` appends -1 to the caller's list.
* `C37_symmetry_refuted`: symmetry='spin' is kept for RTD when `indexing` is given explicitly (validation.py 41-51 resets it only
  for `indexing=None`).  `C37_mfreeq_refuted`: `validate_mfreeq` is never called.  `C37_class_refuted`: a kerntype given as a
  class is not validated.  `C37_elph_refuted`: BuilderElPh accepts 'RTD' and then raises KeyError.
  `C37_set_kerntype_refuted`: assigning `kerntype` later validates nothing ('Pauli' with 'ssq' to '2vN' keeps 'ssq').
* `C34_coherences_refuted`: `remove_coherences` after a solve does not set `si.states_changed`, so the next solve works on
  arrays of the old size; their surplus rows and columns are zero and `np.linalg.solve` fails (various.py 220-283,
  aprclass.py 141).
* `C34_mfreeq_on_refuted`, `C34_mfreeq_off_refuted`: the `mfreeq` setter (aprclass.py 75-77) does not reset `is_prepared`;
  switching after a solve makes the next solve fail or raise.
* `C34_matrix_free_current_refuted`: when `optimize.root` raises before evaluating, phi0 is zeroed but the handler still
  holds the last vector of the previous solve, from which the current is computed.
* `C34_shared_refuted`: `states_changed` is an attribute of si; of two approach objects on one builder only the first to
  solve notices a new state selection.
* `C35_lsmr_refuted`, `C35_unknown_refuted`: `solmethod='lsmr'` and unknown names call no solver; the previous solution is
  reported with `success=True`.
* `C42_removed_refuted`, `C42_sz_refuted`: `generate_kern` of 2vN (neumann2.py 303-317) does not ask whether an element is
  included. A coherence without a number has index -1, so its row is added to the last row of the kernel: after
  `remove_coherences`, or with 'sz' indexing (reachable by assigning kerntype later), the trace rows no longer cancel.
* RTD energy current (`C41_energy_refuted`, `C41_energy_raises`): generate_current uses `LE = 2*qd.Ea`, one entry per
  many-body state, against a kernel with one row per considered state. After remove_states the lengths differ and
  np.dot raises, although the kernel and the charge current are well defined.
* Rotation for 'sz' and 'ssq' (`C21_sz_spin_flip_refuted`): only blocks that differ by the spin of the lead's half are
  rotated, so a tunneling amplitude that does not conserve spin (lead 0 coupled to a spin-down level) is lost without a
  message. With spin-conserving leads the result is right (`C21_constructed`).
* 'ssq' with a broken multiplet (`C48_broken_multiplet_refuted`): `set_mapdm` (indexing.py 764-768, 959-984, 1160-1181) writes the
  partners of an element without asking whether they are considered; the slot of a state that is not considered comes from an
  old entry of `dictdm`, so a coherence can overwrite the number of a population of another charge.
* C52: with itype=1 the energy amplitudes en0 and en1 lack mu: the added constants are -Dm and -Dp (specfunc.py 113-114 use Dm/T, Dp/T)
  where the integral of f (f-1) over the band is mu-Dm (mu-Dp) up to exponentially small terms, as itype=0 has it. `C52_wide_band_offset`
  holds for every wide band, `C52_wide_band_energy_refuted` is an instance with mu=1.
* Coulomb elements outside the documented order (`C54_unordered_refuted`, `C54_exchange_order_refuted`, `C54_two_names_refuted`): with
  symmetry='spin', herm_c and m_less_n an element given with k < l gets its Hermitian conjugate for opposite spins only, so the
  Hamiltonian is neither Hermitian nor spin symmetric; an exchange element (m,n,m,n) with m > n is doubled for equal spins only; an
  element added as (m,n,n,m) and changed as (n,m,m,n) is replaced for opposite spins and summed for equal spins. The documentation
  asks for k>l, n>m (qdot.py 480) but nothing checks it; with 'ssq' the eigenstates are then wrong without a message.
* RTD after `remove_coherences` (`C55_removed_refuted`, `C55_removed_raises_refuted`): `KernelHandlerRTD` subtracts npauli from the
  number -1 of a removed coherence and numpy wraps the negative index, so with three levels what belongs to the coherence of states 1
  and 3 is added to that of states 2 and 3; when no coherence is left the access raises IndexError. The other handlers skip the number -1.
* RTD pairs of equal energy: `RTD.py 906-911` gives both orders of a degenerate pair +1/1e-10, and the two contributions cancel
  (`deg_cancel` in `PropRTDCoh.v`); so coherences of exactly degenerate states are ignored, while a gap of 1e-11 counts as 1e-10.
* RTD amplitudes are the 1vN ones only for |Dm| = |Dp| (`C55_band_refuted`): `specfunc.py phi` uses the mean band width.
* Pauli with degenerate states (`C56_pauli_refuted`): two degenerate one-electron states, each coupled to its own lead, carry no
  current; with (3|1> + 4i|2>)/5 and its partner as eigenvectors the same system carries one.  The result depends on what the eigensolver returns.
* `C58_range_refuted`: the extension of the 2vN grid is computed from dmin + E_d - E_b and dmax + E_d - E_b (neumann2.py 173-175), but
  the terms use -(E_k - E_d + E_b), that is -dmax + E_d - E_b to -dmin + E_d - E_b.  For a band that is not symmetric around zero
  energies outside the extended grid are requested, and `func_2vN` and `get_at_k1` silently return zero there.
* `C59_coherence_refuted`: `get_at_k1` (neumann2.py 675-712, also c_neumann2.pyx) conjugates a row of phi1k element by element, but the
  column of the element (b,b') of the density matrix becomes the column of (b',b) on conjugation. `generate_kern` does this exchange
  ("shuffle"), the iteration does not. For density matrices with imaginary coherences the iterated table therefore does not solve
  the 2vN equation; for real ones it does (`C59_equation`).
* `C60_new_grid_refuted`: `make_Ek_grid` (neumann2.py 143-145) announces "Ek_grid has changed. Restarting the calculation.", but it is called
  only while is_zeroth_iteration holds, when niter is -1 and the branch is skipped. After a first iteration, new values of kpnt, dlst,
  ext_fct, tlst are silently ignored with restartq=False (`C60_continue_ignores`).
* `C60_kpnt_zero_refuted`: kpnt=0 leaves an empty Ek_grid, which restart() does not reset; every later solve raises IndexError at
  `Ek_grid[0]`, whatever kpnt is then.
* `C62_left_refuted`: `polygamma(U, K)` for Re U < 0 (specfunc.py 437-454) takes tanh of the real part, forgets parentheses in
  `B - 1j*A*T / (A + 1j*A*T)` and reflects at V = U+16-int(A) instead of U; polygamma(-1/2, 1) is not real.
* `C65_removed`, `C65_removed_refuted`: the compiled kernel handler asks only `booldm0` which elements to list, and `remove_coherences`
  changes `mapdm0` and `ndm0` but not `booldm0`.  After any coherence was removed it writes behind the end of `all_bbp` (bounds checks
  are off); the rows inside hold removed elements (number -1) and the last populations are missing.  The Python loop asks
  `is_included` as well (c_kernel_handler.pyx 75-92, aprclass.py 246).
* `C66_removed_refuted`: the band widths drop out of the RTD kernel because the tunnelling operators of one lead anticommute to a number in the
  space of all states.  With the doubly occupied state of two levels removed, a shift of the direct integrals changes the kernel.
  A related slip is harmless without removed states (`C66_log_T2`): `_D_integral` takes `log(D/(2*pi*T1))` beside a digamma function of
  arguments in units of T2 (specfunc.py 708).
* Many-body input (`C67_*`): `statesdm[Na[i]].append(i)` uses the particle number as a list index without subtracting the smallest one
  (builder_base.py 350).  Numbers 1, 2, 3 raise IndexError (`C67_raises`).  Numbers of both signs are accepted, but the negative ones are
  placed behind the others, so a state with -1 particles is treated as having one *more* than the state with 0 (`C67_negative_refuted`).
* `C67_use_all_refuted`, `C67_remove_states_refuted`, `C67_readout_refuted`, `C67_kerntype_refuted`: `si.chargelst`, `si.i` and `si.nsingle`
  of such a system stay those of zero single-particle states.  `use_all_states` and `remove_states` therefore raise or silently keep only
  state 0, `get_phi0` and `get_phi1` raise for every other state, and a change of kerntype to or from 2vN makes a new indexing object with
  state 0 only.
* `C68_removed_refuted`, `C68_ratio_refuted`: with itype=1 the band widths drop out of 1vN and Redfield only if every many-body state is
  kept.  After `remove_states` the terms in `ln|Dm|` do not cancel any more, so the coherences rotate with a frequency that grows with the
  band width.  The same happens when the two edges of a band are moved by different factors.
* `C69_degenerate_refuted`: when the linear system of `solve_kern` has more than one solution (for example no tunnelling at all) there are
  solutions with negative occupations, and nothing in the code checks the sign of what the solver returns.
* `C70_beyond_guard_refuted`: `fermi_func` returns exactly 0 above 709.77 kT.  With one transition beyond that guard the rates no longer obey
  detailed balance, and there is a two-level system without bias whose unique stationary state carries heat from the cold to the hot lead.
* `C73_left_refuted`: for Re z <= 0 the compiled `digamma` calls `polygamma(z, 0)`, whose reflection formula is wrong (see `C62_left_refuted`):
  at z = -1/2, where psi is real, it returns a number with imaginary part below -1.  The level integrals only use Re z >= 1/2.
* `C74_rtd_refuted`, `C74_below_threshold`: `integralD` and `integralX` compare `abs(T2-T1)` with the absolute numbers 1e-5 and 1e-10.  A temperature
  difference below 1e-5 *in the units the user happens to use* is ignored in the direct integral (1e-5 eV is about 0.1 K), while the exchange integral
  of the Python module still resolves it.  The compiled module uses 1e-5 for both (`c_specfunc.pyx` 76, 325, 342), so the two modules disagree for
  1e-10 <= abs(T2-T1) < 1e-5.  For every non-empty list of positive poles there is a choice of units that changes the result.
* `C76_vn1_refuted`: the 1vN and Redfield kernels can make a positive density matrix indefinite.  With levels at 0 and 1, one lead (mu = 0, T = 1) and
  the electron in the state (4|1> - 3|2>)/5 both kernels decrease the occupation of the empty state below zero, whatever the integral type.
  The Lindblad kernel never does (`C76_lindblad`).  This is a property of the equations the code implements, not a slip in the code.
* `C77_matrix_element_refuted`: the documentation calls `hsingle[(i,j)]` the matrix element hij, and `make_hsingle_mtr` puts it at row i, column j, but
  `construct_ham_hopping` adds `hij d_j^dagger d_i`: the many-body Hamiltonian belongs to the transposed (complex conjugated) matrix.  Real hoppings
  hide this; with complex hoppings (magnetic flux, spin-orbit coupling) the sign of every phase is reversed relative to the documentation.
* `C78_unresolved_refuted`: for levels closer than `eps` kT `FuncPauliElPh` replaces the energy difference by `eps` kT, so the bath acts like a colder
  one; with leads and bath at one temperature a stationary current then flows against the bias (level distance eps/4, bias eps/8).

## Simplifications worth knowing

* SolveState.v keeps the life cycle of an approach object and leaves what an approach generates abstract: the factors,
  the handler calls and the currents are arbitrary functions of the selection, the parameters and the arrays they may read.
  Arrays other than kern, bvec, norm_vec and phi0 are one group `Arrs` with shapes.  An index outside kern raises; negative
  indices are treated as outside (C10, C11 exclude them).
* `ndm0_tot`, `ndm1_tot` are exact integers; the code goes through floats (exact up to nsingle = 30).
* The reachable objects of C07-C11 (`DMReach.v`, `reach`) are built by the constructors, `use_all_states`,
  `set_statesdm` with a duplicate-free choice of states of the right charge, and for 'charge' and 'sz'
  `remove_fock_states`.  'Lin' with removals is left out because of the finding above.
* Level labels in hsingle, coulomb, tleads, velph keys are natural numbers (negative Python indices are
  not modelled); a label >= nsingle is an IndexError.
* `hsingle[(i,j)] = h` contributes `h d_j^dagger d_i` (the transpose of the order used by `velph`, where
  `(b,i,j)` contributes `V d_i^dagger d_j`).  C14 and C16 state exactly this.
* A spin-flip element with 'sz' indexing raises ValueError (`C14_spin_flip_raises`).
* The kernel theorems (C23 on) are about `system` (`PropKernel.v`): any reachable StateIndexingDM without 'ssq',
  optionally after one `remove_coherences`.  Energies in `remove_coherences` are rationals.
* Kernel, tables and vectors are functions on integers; every index the code writes is proved to lie inside the
  array (`gen_in_range`), so no wrap-around or IndexError is hidden by this.
* `solve_kern`: `norm_row` is a non-negative row number (numpy's negative rows are not modelled).  The library
  solver is a function that returns a vector or raises; floating-point error is outside the model.
* Parameter histories (C18-C20): `si.symmetry is 'spin'` is taken as equality; update_Tba0/update_Vbbp0 only with a dict;
  `updateq=False` of add/change is only modelled where the code itself uses it.
* 2vN (`VN2K.v`): the energy grid, the Hilbert transforms and the iteration producing `phi1_phi0` are not modelled; the
  table is an arbitrary argument. Negative row numbers are wrapped with the number of rows for `symq=True`. Only the
  particle current is modelled.
* RTD (`RTDK.v`): integralD, integralX, fermi_func, phi, the inverse Liouvillian and the kernel from diagonal to
  non-diagonal elements are arbitrary arguments there and are the modelled tables of `RTDNd.v` in C55; delta_phi is a difference of two phi values (specfunc.py 314-336).
  The column index of ReWdn/ImWdn may be negative (numpy wrap-around) when coherences were removed.
* Rotation (`Rotate.v`): the eigenvector matrices are arbitrary functions; only for 'ssq' their widths matter and are data.
  Leads (baths) are rotated one at a time, since a pass of the loops only touches `Tba[l]`.
* Spin operators (`SpinOps.v`): only for an indexing without removed states (the code uses them with 'ssq', where removal is
  refused); a removed state would make `list.index(None)` raise.
- `Multiplets.v`: valslst and vecslst are one table of records; the two are always written together. `np.linalg.eigh` is a parameter, once for real and once for complex matrices; `np.rint` of an exact real number. The commented and printing code is left out; the Hamiltonian `ham_` is an argument (the code builds it from the parameters when it is not given, qdot.py 496-501).
* C56: eigenvalues of the two sets are equal state by state (eigh returns them sorted), and in `C56_eigenvectors` no many-body state is removed; the theorems of `PropBasisR.v` hold for any considered states as long as U does not mix them with others.
* `Hilbert.v`, `VN2Grid.v`: real numbers instead of floats; `np.fft.fft` and `ifft` are the defining sums, `np.arange` has ceil((stop - start)/step) elements, `int` of a non-negative number is the integral part. Leads and table columns are independent in these functions and are modelled one at a time.
* `VN2Iter.v`: func_2vN and get_at_k1 are arguments (instantiated by `VN2Grid.v`); `kern1_inv` is the argument of the later multiplication.
* 2vN iteration (C59): `numpy.linalg.inv` is a parameter with the contract M * inv M = 1 for the matrices it is applied to; ndarray tables
  are functions of their indices; the in-place updates of phi1k_delta are modelled on an explicit copy, as the code reads only the
  old Hilbert-transformed table while writing the new one; arithmetic is exact over the reals.
* 2vN runs (C60): the set of kept states is not changed between the calls; after an exception inside `iterate` a continued calculation is
  taken to raise (a restarted one is modelled exactly).
* RTD integrals (C61): only the branch of equal temperatures; digamma and polygamma enter as functions with a contract.
* polygamma (C62): exact arithmetic; the decimal numerals are taken as rationals, 1/0 is not reached.
- `Ozaki.v`: `eigh_tridiagonal` is a parameter; its contract (orthonormal eigenvectors of the tridiagonal matrix) is a hypothesis about the one call that is made. A store behind the last row of `b_and_R` is `None`. Odd N (excluded by the docstring) is outside the theorems.
- `CKernelHandler.v`: memory is sequentially consistent and one load or store of a double is atomic; the values that the coupling terms add are computed from tables nobody writes during the loop, so only the updates of the shared array are steps. A read or write outside an array is `None`. The compiled coupling terms are written out separately from the Python ones (they read the rectangular copy of `statesdm`).
- `RTDGen.v`: real numbers; complex digamma and polygamma are parameters (their values are C62, C63); `integralD_with` is integralD with another logarithm, used only to state `C66_log_T2`. The comparison `1 / n > D / T2` is exact.
- `ManyBody.v`: integer particle numbers (`np.array(Na, dtype=int)` of other input is not modelled); the arrays `Ea`, `Tba` are stored as given. `mb_set` lists the IndexErrors of `set_statesdm` for a list that is too short.
