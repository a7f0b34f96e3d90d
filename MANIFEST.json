{
 "claims": [
  {
   "property": "C01",
   "status": "proved",
   "theorems": [
    "C01_round_trip"
   ],
   "note": "All nsingle >= 1, every indexing string."
  },
  {
   "property": "C02",
   "status": "proved",
   "theorems": [
    "C02_charge_blocks"
   ],
   "note": ""
  },
  {
   "property": "C03",
   "status": "proved",
   "theorems": [
    "C03_sz_blocks"
   ],
   "note": ""
  },
  {
   "property": "C04",
   "status": "proved",
   "theorems": [
    "C04_ssq_blocks"
   ],
   "note": ""
  },
  {
   "property": "C05",
   "status": "proved",
   "theorems": [
    "C05_quantum_numbers",
    "C05_quantum_numbers_history"
   ],
   "note": "Construction for every indexing; after removals for 'charge' and 'sz'."
  },
  {
   "property": "C06",
   "status": "partial",
   "theorems": [
    "C06_remove_history",
    "C06_remove_lin_once_partial",
    "C06_remove_lin_twice_refuted"
   ],
   "note": "Proved for every call history with 'charge' and 'sz'; with 'Lin' proved for one call and refuted for two calls (the second call reads the renumbered chargelst as Lin indices)."
  },
  {
   "property": "C07",
   "status": "proved",
   "theorems": [
    "C07_slots"
   ],
   "note": "Every object reachable by construction, use_all_states, set_statesdm and (charge/sz) remove_fock_states; all three classes, all four indexings."
  },
  {
   "property": "C08",
   "status": "proved",
   "theorems": [
    "C08_numbering_dm",
    "C08_numbering_dmc",
    "C08_numbering_pauli"
   ],
   "note": "Indexing Lin/charge/sz, all reachable objects."
  },
  {
   "property": "C09",
   "status": "proved",
   "theorems": [
    "C09_first_order_slots"
   ],
   "note": "Image is exactly [0, ndm1)."
  },
  {
   "property": "C10",
   "status": "proved",
   "theorems": [
    "C10_counts",
    "C10_full_counts"
   ],
   "note": "ndm0_tot and ndm1_tot as exact integers (Python computes them through floats)."
  },
  {
   "property": "C11",
   "status": "proved",
   "theorems": [
    "C11_outer_sectors"
   ],
   "note": "All reachable objects; lookups with Python's negative wrap-around."
  },
  {
   "property": "C12",
   "status": "partial",
   "theorems": [
    "C12_dm",
    "C12_dm_unchanged",
    "C12_dm_caller_list",
    "C12_pauli_refuted",
    "C12_dmc_refuted",
    "C12_lookups_partial"
   ],
   "note": "True for StateIndexingDM; false for StateIndexingPauli and StateIndexingDMc, which append [] to chargelst; for them the lookups of charges 0..nsingle are proved unchanged."
  },
  {
   "property": "C13",
   "status": "proved",
   "theorems": [
    "C13_tunnelling",
    "C13_hermitian_and_selection",
    "CAR_ann",
    "CAR_cre",
    "CAR_mixed",
    "adjoint"
   ],
   "note": "All nsingle, all indexings, removal histories for which C06 holds, arbitrary amplitudes over any commutative ring; also for a given initial Tba_."
  },
  {
   "property": "C14",
   "status": "proved",
   "theorems": [
    "C14_hopping_block",
    "C14_charge_block",
    "C14_sz_block",
    "C14_hermitian",
    "C14_spin_flip_raises"
   ],
   "note": "Any closed block; charge blocks never fail; sz blocks never fail for spin-conserving keys (a spin-flip key raises, witness given)."
  },
  {
   "property": "C15",
   "status": "proved",
   "theorems": [
    "C15_coulomb_block",
    "C15_charge_block",
    "C15_sz_block",
    "C15_hermitian"
   ],
   "note": "Both flags herm_c and m_less_n; Hermitian when the entries without conjugate term are closed under (m,n,k,l),U -> (l,k,n,m),conj U."
  },
  {
   "property": "C16",
   "status": "proved",
   "theorems": [
    "C16_phonon",
    "C16_charge_and_hermitian"
   ],
   "note": "Arbitrary couplings."
  },
  {
   "property": "C23",
   "status": "proved",
   "theorems": [
    "C23_pauli_columns"
   ],
   "note": "Every nsingle, 'Lin'/'charge'/'sz' indexing, every history of the StateIndexingDM object, optionally after one remove_coherences; arbitrary tables over any commutative ring."
  },
  {
   "property": "C24",
   "status": "proved",
   "theorems": [
    "C24_pauli_currents"
   ],
   "note": "Every nsingle, 'Lin'/'charge'/'sz' indexing, every history of the StateIndexingDM object, optionally after one remove_coherences; arbitrary tables over any commutative ring."
  },
  {
   "property": "C27",
   "status": "proved",
   "theorems": [
    "C27_lindblad"
   ],
   "note": "Every nsingle, 'Lin'/'charge'/'sz' indexing, every history of the StateIndexingDM object, optionally after one remove_coherences; arbitrary tables over any commutative ring. 0.5 is any h with h+h=1."
  },
  {
   "property": "C28",
   "status": "proved",
   "theorems": [
    "C28_vn1"
   ],
   "note": "Every nsingle, 'Lin'/'charge'/'sz' indexing, every history of the StateIndexingDM object, optionally after one remove_coherences; arbitrary tables over any commutative ring. Trace rows for any T; current statement for Hermitian T."
  },
  {
   "property": "C29",
   "status": "proved",
   "theorems": [
    "C29_redfield"
   ],
   "note": "Every nsingle, 'Lin'/'charge'/'sz' indexing, every history of the StateIndexingDM object, optionally after one remove_coherences; arbitrary tables over any commutative ring. Trace rows for any T; current statement for Hermitian T."
  },
  {
   "property": "C33",
   "status": "proved",
   "theorems": [
    "C33_readout"
   ],
   "note": "Every nsingle, 'Lin'/'charge'/'sz' indexing, every history of the StateIndexingDM object, optionally after one remove_coherences; arbitrary tables over any commutative ring."
  },
  {
   "property": "C40",
   "status": "partial",
   "theorems": [
    "C40_remove_coherences_partial",
    "C40_second_call_refuted",
    "C40_negative_refuted"
   ],
   "note": "Proved for the first call after any state selection with dE >= 0 and at least one considered state. False for repeated calls: inddm0 is not renumbered, so a second call looks at the energies of other states (witness). With dE < 0 diagonal elements are removed too (witness)."
  },
  {
   "property": "C31",
   "status": "proved",
   "theorems": [
    "C31_row_replacement",
    "C31_extra_row",
    "C31_solve_kern",
    "C31_unknown_method_refuted"
   ],
   "note": "Every nsingle, 'Lin'/'charge'/'sz' indexing, every history of the StateIndexingDM object, optionally after one remove_coherences; arbitrary tables over any commutative ring. C31_solve_kern is about the routine as a whole for the four first-order approaches, with the library solver as a parameter that may raise. With a solmethod other than solve/lsqr the routine reports success with the previous solution (witness)."
  },
  {
   "property": "C32",
   "status": "proved",
   "theorems": [
    "C32_matrix_free"
   ],
   "note": "Every nsingle, 'Lin'/'charge'/'sz' indexing, every history of the StateIndexingDM object, optionally after one remove_coherences; arbitrary tables over any commutative ring. Pauli, Lindblad, 1vN and Redfield without phonons."
  },
  {
   "property": "C46",
   "status": "proved",
   "theorems": [
    "C46_pauli",
    "C46_lindblad",
    "C46_vn1",
    "C46_redfield"
   ],
   "note": "Every nsingle, 'Lin'/'charge'/'sz' indexing, every history of the StateIndexingDM object, optionally after one remove_coherences; arbitrary tables over any commutative ring. A ring element h with h+h=1 is assumed to exist (over the reals: 1/2). Removed coherences are zero in the operator."
  },
  {
   "property": "C47",
   "status": "proved",
   "theorems": [
    "C47_pauli",
    "C47_lindblad",
    "C47_vn1",
    "C47_redfield"
   ],
   "note": "Every nsingle, 'Lin'/'charge'/'sz' indexing, every history of the StateIndexingDM object, optionally after one remove_coherences; arbitrary tables over any commutative ring. Energy currents for Pauli and Lindblad only."
  },
  {
   "property": "C30",
   "status": "proved",
   "theorems": [
    "C30_pauli",
    "C30_lindblad",
    "C30_vn1",
    "C30_redfield",
    "C30_currents",
    "C30_use_all_states_refuted"
   ],
   "note": "Every system built through construction, remove_states, remove_fock_states (indexing 'charge' or 'sz') and one remove_coherences; all indexings except 'ssq'. False after use_all_states on a system whose states were removed: BuilderElPh does not update si_elph (witness)."
  },
  {
   "property": "C49",
   "status": "proved",
   "theorems": [
    "C49_pauli",
    "C49_lindblad",
    "C49_vn1",
    "C49_redfield"
   ],
   "note": "Systems as in C30. A ring element h with h+h=1 is assumed to exist; Hermitian tunnelling matrix for 1vN and Redfield. The tables of bath integrals are arbitrary."
  },
  {
   "property": "C25",
   "status": "proved",
   "theorems": [
    "C25_equilibrium",
    "C25_error",
    "C25_gibbs_exists",
    "C25_beyond_guard_refuted"
   ],
   "note": "Every nsingle, 'Lin'/'charge'/'sz' indexing, every history of the StateIndexingDM object, optionally after one remove_coherences; arbitrary tables over any commutative ring. Over the reals, tables as written by generate_fct. Exact while every transition energy is at most 709.77 kT above the chemical potential (the overflow guard of fermi_func); beyond it the deviation is bounded by 2 pi exp(-709.77) times the coupling, and the exact statement is refuted with a witness."
  },
  {
   "property": "C26",
   "status": "proved",
   "theorems": [
    "C26_entries",
    "C26_signs"
   ],
   "note": "Every nsingle, 'Lin'/'charge'/'sz' indexing, every history of the StateIndexingDM object, optionally after one remove_coherences; arbitrary tables over any commutative ring. Over the reals, tables as written by generate_fct."
  },
  {
   "property": "C36",
   "status": "proved",
   "theorems": [
    "C36_fermi",
    "C36_func_pauli",
    "C36_band",
    "C36_particle_hole",
    "C36_fermi_symmetry_refuted"
   ],
   "note": "Real arithmetic. f(x)+f(-x)=1 holds for |x| <= 709.77; beyond the overflow guard the deviation is below exp(-709.77) and never 0 (refuted there)."
  },
  {
   "property": "C50",
   "status": "proved",
   "theorems": [
    "C50_rate_equation",
    "C50_signs",
    "C50_equilibrium",
    "C50_unresolved_refuted"
   ],
   "note": "Systems as in C30, over the reals, tables as written by generate_fct. Refuted for pairs of connected states closer than eps_elph kT but not degenerate."
  },
  {
   "property": "C51",
   "status": "proved",
   "theorems": [
    "C51_populations",
    "C51_currents",
    "C51_entries"
   ],
   "note": "Every nsingle, 'Lin'/'charge'/'sz' indexing, every history of the StateIndexingDM object, optionally after one remove_coherences; arbitrary tables over any commutative ring. Over the reals, tables as written by generate_fct, itype 0 to 3; quadrature and digamma are arbitrary functions (they enter the real parts only)."
  },
  {
   "property": "C18",
   "status": "proved",
   "theorems": [
    "C18_fresh",
    "C18_values",
    "C18_change_twice",
    "C18_operator",
    "C18_add_own_dictionary_refuted",
    "C18_coulomb_zero_refuted"
   ],
   "note": "Every finite history of add, change (updateq=True) and remove_fock_states, arguments as dict, list or array. C18_fresh: every stored block equals the one built from the stored dictionaries. C18_values: add/change touch exactly the named entries (coulomb values without spin symmetry; see C43). C18_operator: with existing, spin-conserving levels no call raises and the blocks are the second-quantised operator. Refuted for passing the dot's own dictionary to add, and for setting a Coulomb element to 0 with a list."
  },
  {
   "property": "C19",
   "status": "proved",
   "theorems": [
    "C19_fresh",
    "C19_array",
    "C19_values",
    "C19_change_twice",
    "C19_operator",
    "C19_array_stale_refuted",
    "C19_add_own_dictionary_refuted",
    "C19_update_spin_refuted"
   ],
   "note": "Every finite history of add, change, remove_fock_states and update_Tba0 (without spin symmetry). Tba0 is always fresh; tleads_array agrees unless the last call on tleads was change, for which it is refuted."
  },
  {
   "property": "C20",
   "status": "proved",
   "theorems": [
    "C20_fresh",
    "C20_values",
    "C20_change_twice",
    "C20_operator",
    "C20_add_own_dictionary_refuted",
    "C20_update_spin_refuted"
   ],
   "note": "Every finite history of add, change, remove_fock_states and update_Vbbp0 (without spin symmetry)."
  },
  {
   "property": "C43",
   "status": "proved",
   "theorems": [
    "C43_hsingle",
    "C43_tleads",
    "C43_velph",
    "C43_coulomb",
    "C43_commutes",
    "C43_overwrite_refuted",
    "C43_complex_exchange_refuted"
   ],
   "note": "Elements between the nsingle/2 orbitals. Coulomb: key by key for herm_c=False with any m_less_n, and for herm_c=True with m_less_n=True when no operator is given twice. C43_commutes: after every history of add, change and remove_fock_states; with herm_c=True exchange elements (m,n,m,n) must be real (refuted otherwise). An element given in both orders with different values is silently overwritten (witness)."
  },
  {
   "property": "C44",
   "status": "proved",
   "theorems": [
    "C44_values",
    "C44_rejects",
    "C44_failed_change_refuted",
    "C44_tuple_refuted",
    "C44_init_length_refuted"
   ],
   "note": "Every finite history of add and change on mulst, tlst and dlst after the constructor, with and without spin symmetry, keys of existing leads and lists of one value per lead (also tlst_ph, dlst_ph of the baths). Witnesses: a change that raises half way is not undone, a tuple sets zeroes, a first list of the wrong length is kept."
  },
  {
   "property": "C39",
   "status": "proved",
   "theorems": [
    "C39_history",
    "C39_zero_refuted"
   ],
   "note": "Every energy list, every finite history of remove_states, use_all_states and other selections, dE > 0: exactly the states below the minimum plus dE are considered, the ground state among them; use_all_states restores all. Refuted for dE <= 0 (removes every state)."
  },
  {
   "property": "C45",
   "status": "partial",
   "theorems": [
    "C45_phi0",
    "C45_phi1",
    "C45_phi0_dmc",
    "C45_removed_refuted",
    "C45_pauli_refuted"
   ],
   "note": "Proved for every pair of considered states after every selection history (first-order approaches except Pauli, and 2vN). Refuted on the model: a removed state returns another state's probability, and a Pauli solution raises IndexError because funcp.kerntype is always '2vN'."
  },
  {
   "property": "C22",
   "status": "proved",
   "theorems": [
    "C22_charge",
    "C22_sz",
    "C22_ssq"
   ],
   "note": "All four indexings, every nsingle >= 1, eigenvalue lists of the block sizes; 'charge' and 'sz' also after every history of remove_fock_states. Every state sits at exactly one position and Ea holds the eigenvalue of that position; no exception."
  },
  {
   "property": "C38",
   "status": "proved",
   "theorems": [
    "C38_sorted",
    "C38_reset",
    "C38_after_removal_refuted"
   ],
   "note": "Every indexing, energies (rational), every list of valid keys (negative ones included) and every history of sort_eigenstates and remove_fock_states calls that do not raise. Refuted between remove_fock_states and the next sort: the old order stays."
  },
  {
   "property": "C37",
   "status": "partial",
   "theorems": [
    "C37_kerntype",
    "C37_itype",
    "C37_itype_ph",
    "C37_mfreeq",
    "C37_indexing",
    "C37_builder",
    "C37_builder_idempotent",
    "C37_set_kerntype",
    "C37_symmetry_refuted",
    "C37_mfreeq_refuted",
    "C37_class_refuted",
    "C37_elph_refuted",
    "C37_set_kerntype_refuted"
   ],
   "note": "Each validator is total, a fixpoint on allowed values and idempotent, for all strings and numbers. C37_builder: string kerntypes give a consistent system provided RTD is not combined with mfreeq or with an explicit indexing and symmetry='spin'. The full combined claim is false: witnesses for those two cases, for kerntype given as a class, for BuilderElPh with RTD and for assigning kerntype later."
  },
  {
   "property": "C34",
   "status": "partial",
   "theorems": [
    "C34_solve_partial",
    "C34_matrix_free_partial",
    "C34_stationary_partial",
    "C34_coherences_refuted",
    "C34_mfreeq_on_refuted",
    "C34_mfreeq_off_refuted",
    "C34_matrix_free_current_refuted",
    "C34_shared_refuted"
   ],
   "note": "Every history of state selections, parameter and option changes and solve calls (also ones that raised), for arbitrary generators of factors, kernel and currents. Refuted for remove_coherences after a solve, for switching mfreeq after a solve, for the current after a failed matrix-free solve, and for two approach objects on one builder."
  },
  {
   "property": "C35",
   "status": "partial",
   "theorems": [
    "C35_success_partial",
    "C35_method",
    "C35_lsmr_refuted",
    "C35_unknown_refuted"
   ],
   "note": "Every history with mfreeq=False and a method that solve_kern knows ('solve', 'lsqr', or None). Refuted for 'lsmr' and unknown names: the previous solution is reported as success."
  },
  {
   "property": "C42",
   "status": "proved",
   "theorems": [
    "C42_trace",
    "C42_current",
    "C42_stationary",
    "C42_adjoint",
    "C42_solve",
    "C42_removed_refuted",
    "C42_sz_refuted"
   ],
   "note": "Every object reached with 'Lin' or 'charge' indexing (those the validation admits for 2vN), every phi1 table, Hermitian tunneling matrix where stated. The table itself (the iteration of the integral equation) is not modelled. Refuted for removed coherences and 'sz' indexing."
  },
  {
   "property": "C41",
   "status": "proved",
   "theorems": [
    "C41_columns",
    "C41_kernel",
    "C41_current",
    "C41_energy",
    "C41_fresh",
    "C41_energy_raises",
    "C41_energy_refuted"
   ],
   "note": "For arbitrary diagram values, rates, special functions, cutoff tests, inverse Liouvillian and diagonal-to-nondiagonal kernels, with and without off-diagonal corrections: every column of every lead's kernel sums to zero; the solver's equations are stationarity and unit trace; each lead's current is the electron-weighted action of its kernel and the currents add up to the change of the charge. Beyond the claim: the energy currents balance when all states are kept; after remove_states the energy current raises (refuted)."
  },
  {
   "property": "C21",
   "status": "proved",
   "theorems": [
    "C21_charge",
    "C21_sz",
    "C21_ssq",
    "C21_phonons",
    "C21_hermitian_and_selection",
    "C21_unitary",
    "C21_similarity",
    "C21_constructed",
    "C21_sz_spin_flip_refuted"
   ],
   "note": "Every indexing object (any history of removed Fock states for 'charge' and 'sz'), all eigenvector matrices, every Hermitian Tba0 with the charge (or spin) selection rule; C21_constructed instantiates it with the constructed matrices. Also proved for the phonon couplings and for 'sz' and 'ssq', where it needs spin-conserving leads: without them amplitudes are dropped silently (refuted)."
  },
  {
   "property": "C17",
   "status": "proved",
   "theorems": [
    "C17_lower",
    "C17_raise",
    "C17_transpose",
    "C17_commutator",
    "C17_ssquare",
    "C17_extreme"
   ],
   "note": "Every even nsingle, every charge and every sz of its range, 'sz' and 'ssq' indexing. The code's matrices are those of the spin operators built from creation and annihilation operators; the algebra then follows from the anticommutation relations. At the edges of the sz range the code returns the number 0 and the operator annihilates the block."
  },
  {
   "property": "C53",
   "status": "proved",
   "theorems": [
    "C53_multiplets",
    "C53_ssq_cells",
    "C53_hamiltonian"
   ],
   "note": "Every even nsingle, charge, 'sz' and 'ssq' indexing, every Hermitian Hamiltonian. numpy's eigh is a parameter with its contract (ascending real eigenvalues, orthonormal columns, eigenvector equation) assumed only for the matrices it is called with. Exact arithmetic: the rounding np.rint(-1+sqrt(1+eigval)) acts on exact eigenvalues. C53_hamiltonian needs a Hamiltonian that commutes with S+."
  },
  {
   "property": "C48",
   "status": "proved",
   "theorems": [
    "C48_numbering_dm",
    "C48_numbering_dmc",
    "C48_numbering_pauli",
    "C48_all_states",
    "C48_broken_multiplet_refuted"
   ],
   "note": "Every even nsingle and every reachable object (constructor, use_all_states, set_statesdm; remove_fock_states is covered by C06 and refused with 'ssq' by the code) whose considered states are whole multiplets. C48_all_states: the constructed object qualifies. Without whole multiplets the claim is false (refuted): the partner's slot is taken from a stale dictionary entry."
  },
  {
   "property": "C52",
   "status": "proved",
   "theorems": [
    "C52_amplitudes",
    "C52_wide_band_offset",
    "C52_wide_band_energy_refuted"
   ],
   "note": "itype 0, every energy off the band edges, T > 0, Dm < Dp. quad is a parameter assumed to return the principal value for the Fermi function with the code's overflow guard. The energy amplitudes carry the code's own approximation, bounded by 3 T exp(-40). For itype 1 the energy constants miss mu (refuted); the digamma approximation itself is not examined."
  },
  {
   "property": "C54",
   "status": "proved",
   "theorems": [
    "C54_commutes",
    "C54_hermitian",
    "C54_eigenstates",
    "C54_unordered_refuted",
    "C54_exchange_order_refuted",
    "C54_two_names_refuted"
   ],
   "note": "Every history of constructor, add and change calls, keys in the documented order with one name per element; the three ways of leaving that order are refuted with witnesses (the code raises nothing). C54_eigenstates: 'ssq', herm_hs, herm_c, m_less_n set, no removed states (refused by the code for 'ssq'), eigh a parameter that diagonalises Hermitian matrices."
  },
  {
   "property": "C55",
   "status": "proved",
   "theorems": [
    "C55_coherences",
    "C55_first_order",
    "C55_kernel",
    "C55_exists",
    "C55_parts",
    "C55_all_kept",
    "C55_amplitudes",
    "C55_rtd",
    "C55_rtd_exists",
    "C55_band_refuted",
    "C55_removed_refuted",
    "C55_removed_raises_refuted"
   ],
   "note": "Every reachable 'charge' or 'Lin' system in which no coherence was removed. The 1vN side is the master equation of C28/C47 written without index tables (MasterUnits.v). C55_rtd instantiates it with the code's Fermi, phi and clipping functions. After remove_coherences the index -1 wraps around and a removed coherence is added to another one, or the access raises (refuted); for an asymmetric band the RTD and 1vN amplitudes differ (refuted). digamma is a parameter; the second-order terms are not compared to anything."
  },
  {
   "property": "C56",
   "status": "proved",
   "theorems": [
    "C56_vn1",
    "C56_redfield",
    "C56_lindblad",
    "C56_pauli",
    "C56_vn1_solution",
    "C56_redfield_solution",
    "C56_lindblad_solution",
    "C56_eigenvectors",
    "C56_keeps",
    "C56_pauli_refuted"
   ],
   "note": "Kernel covariance, trace, currents and energy currents for every related pair of vectors; existence of the related stationary state, equality of the results when the stationary state is unique. U mixes equal charge and energy and does not mix kept with dropped coherences (C56_keeps: automatic when all coherences of equal charge are kept). C56_eigenvectors derives U from two sets of eigenvectors with equal eigenvalues (no removed states). Pauli: phases only; degenerate rotations refuted. quad and digamma are parameters."
  },
  {
   "property": "C57",
   "status": "proved",
   "theorems": [
    "C57_hilbert",
    "C57_fermi",
    "C57_phi1k",
    "C57_cache",
    "C57_interpolant"
   ],
   "note": "Over the reals, FFT by its definition (any length). The principal value is the limit of Integrals.is_pv; C57_interpolant shows that the piecewise linear function exists for every list."
  },
  {
   "property": "C58",
   "status": "proved",
   "theorems": [
    "C58_grid",
    "C58_interpolation",
    "C58_self_energy",
    "C58_integrals",
    "C58_range",
    "C58_range_refuted"
   ],
   "note": "Over the reals; np.arange has ceil((stop-start)/step) points, floating-point rounding of that quotient is not modelled. C58_range says that changing the functions outside the extended grid changes neither kern1 nor the iteration; for a band that is not symmetric it is refuted with a witness."
  },
  {
   "property": "C59",
   "status": "proved",
   "theorems": [
    "C59_resolvent",
    "C59_prepare",
    "C59_iterate",
    "C59_equation",
    "C59_converged",
    "C59_pair",
    "C59_coherence_refuted"
   ],
   "note": "Over the reals; the matrix inverse of kern1k is a parameter with the contract that it is a right inverse. C59_equation needs a density matrix with real elements; C59_coherence_refuted gives a Hermitian density matrix with imaginary coherence for which the equation fails, since get_at_k1 conjugates row elements without exchanging the columns (b,bp) and (bp,b)."
  },
  {
   "property": "C60",
   "status": "proved",
   "theorems": [
    "C60_repeatable",
    "C60_solve",
    "C60_continue",
    "C60_continue_reachable",
    "C60_continue_ignores",
    "C60_new_grid_refuted",
    "C60_kpnt_zero_refuted"
   ],
   "note": "Every history in which kpnt was never 0 (refuted otherwise). The set of kept states is fixed; diagonalise and rotate are functions of the parameters (C18, C19, C21); generate_kern, solve_kern and generate_current are an arbitrary function of the tables. C60_new_grid_refuted: with a new kpnt and restartq=False the calculation goes on with the old grid instead of the announced restart."
  },
  {
   "property": "C61",
   "status": "proved",
   "theorems": [
    "C61_direct_general",
    "C61_exchange_general",
    "C61_direct_equal",
    "C61_direct_zero",
    "C61_direct_both",
    "C61_exchange_equal",
    "C61_exchange_zero",
    "C61_exchange_both",
    "C61_direct_symmetric",
    "C61_exchange_symmetric",
    "C61_integralD",
    "C61_integralX"
   ],
   "note": "Over the real numbers. The digamma and polygamma values on Re z = 1/2 are parameters; their contract (evenness, derivatives, continuity of the second one) is a hypothesis. Energies above the overflow guards are excluded; for distances strictly between 0 and 1e-10 the code uses the value at the degenerate point, and nothing is claimed."
  },
  {
   "property": "C62",
   "status": "proved",
   "theorems": [
    "C62_polygamma",
    "C62_left_refuted",
    "C62_order"
   ],
   "note": "Real arithmetic, so rounding errors come on top. K=0 (digamma; the code calls scipy for it) is modelled with the complex logarithm as a parameter and not covered. C62_left_refuted: the reflection for Re U < 0 is wrong; qmeq itself only uses Re U = 1/2."
  },
  {
   "property": "C63",
   "status": "proved",
   "theorems": [
    "C63_contract",
    "C63_exists",
    "C63_derivatives",
    "C63_degenerate"
   ],
   "note": "This discharges the contract on digamma/polygamma that C61 assumes. Exact arithmetic; scipy's digamma is taken to be the digamma function."
  },
  {
   "property": "C64",
   "status": "proved",
   "theorems": [
    "C64_expansion",
    "C64_tanh",
    "C64_converges"
   ],
   "note": "Exact arithmetic. The eigensystem returned by scipy for the one matrix that is passed is a hypothesis (orthonormal eigenvectors); satisfied concretely in C64_case."
  },
  {
   "property": "C65",
   "status": "proved",
   "theorems": [
    "C65_elements",
    "C65_diagonal",
    "C65_first_order",
    "C65_parallel",
    "C65_kernel",
    "C65_kernel_pauli",
    "C65_vector",
    "C65_removed",
    "C65_removed_refuted"
   ],
   "note": "Each update kern[x] += v is a load and a store of one thread, one thread per iteration (OpenMP threads that run several iterations are a special case). C65_removed is the negative part of the claim: after remove_coherences the array is too short."
  },
  {
   "property": "C66",
   "status": "proved",
   "theorems": [
    "C66_kernel",
    "C66_current",
    "C66_energy_current",
    "C66_complete",
    "C66_widths",
    "C66_logarithm",
    "C66_band_widths",
    "C66_log_T2",
    "C66_removed_refuted"
   ],
   "note": "C66_band_widths and C66_log_T2 are the statements for systems of the builder; C66_kernel, C66_current and C66_energy_current hold in any commutative ring for any tables of integrals. Every amplitude must vanish or exceed the cutoffs of the loops, and for C66_band_widths the flag ImGamma must be unset (real products); the list of Ozaki poles is fixed (set_Ozaki_params is not modelled)."
  },
  {
   "property": "C67",
   "status": "proved",
   "theorems": [
    "C67_built",
    "C67_raises",
    "C67_follows",
    "C67_numbering",
    "C67_states",
    "C67_pauli_any",
    "C67_pauli",
    "C67_pauli_currents",
    "C67_lindblad",
    "C67_vn1",
    "C67_redfield",
    "C67_elements",
    "C67_selection",
    "C67_kerntype_same",
    "C67_negative_refuted",
    "C67_use_all_refuted",
    "C67_remove_states_refuted",
    "C67_readout_refuted",
    "C67_kerntype_refuted"
   ],
   "note": "1vN and Redfield are stated for any table of integrals, as in C46. The energies and numbers must have the same length. The refuted theorems are findings about mixed-sign numbers, selection of states, read-out and change of approach."
  },
  {
   "property": "C68",
   "status": "proved",
   "theorems": [
    "C68_kernel",
    "C68_current",
    "C68_energy_current",
    "C68_edges",
    "C68_tables",
    "C68_band_widths",
    "C68_removed_refuted",
    "C68_ratio_refuted"
   ],
   "note": "C68_band_widths is the statement for systems of the builder; C68_kernel, C68_current and C68_energy_current hold in any commutative ring with one half for any tables. Entries of the kernel inside its size are compared. The amplitudes T must be Hermitian as functions, also where no entry is read."
  },
  {
   "property": "C69",
   "status": "proved",
   "theorems": [
    "C69_solvable",
    "C69_probabilities",
    "C69_connected",
    "C69_coupled",
    "C69_phonons_solvable",
    "C69_phonons_probabilities",
    "C69_phonons_connected",
    "C69_degenerate_refuted"
   ],
   "note": "Exact arithmetic: the linear solver itself is not modelled, the theorems speak about all solutions of the system it is given. The amplitudes T must be Hermitian as functions, also where no entry is read."
  },
  {
   "property": "C70",
   "status": "proved",
   "theorems": [
    "C70_second_law",
    "C70_first_law",
    "C70_joule",
    "C70_two_leads",
    "C70_solution",
    "C70_beyond_guard_refuted"
   ],
   "note": "Real arithmetic. The guard hypothesis (E_c-E_b-mu_l)/T_l <= cut is needed for every transition of the considered states: C70_beyond_guard_refuted is a two-level system without it. Temperatures need to be positive only in the corollaries that compare them."
  },
  {
   "property": "C71",
   "status": "proved",
   "theorems": [
    "C71_tables",
    "C71_kernels",
    "C71_currents",
    "C71_block",
    "C71_sz_block",
    "C71_eigen",
    "C71_fixed_band_refuted"
   ],
   "note": "First-order approaches without phonons, real arithmetic; quad and digamma are arbitrary functions. The Hamiltonian part needs every level (i,i) to be a key of hsingle. RTD is C72, 2vN is not covered."
  },
  {
   "property": "C72",
   "status": "proved",
   "theorems": [
    "C72_kernel",
    "C72_current",
    "C72_energy",
    "C72_code"
   ],
   "note": "C72_kernel, C72_current, C72_energy hold over any ring for any functions that move along; C72_code instantiates them with the integrals, phi and Fermi functions of specfunc.py over the reals. The energy current needs the states in their index order (C41_fresh)."
  },
  {
   "property": "C73",
   "status": "proved",
   "theorems": [
    "C73_digamma",
    "C73_polygamma0",
    "C73_step",
    "C73_left_refuted"
   ],
   "note": "Real arithmetic with exact ln and atan; psi is defined by its limit. For x <= 0 the compiled digamma is modelled by the Python polygamma, whose first column of coefficients agrees with the compiled one to 18 digits."
  },
  {
   "property": "C74",
   "status": "proved",
   "theorems": [
    "C74_tables",
    "C74_kernels",
    "C74_stationary",
    "C74_currents",
    "C74_amplitudes",
    "C74_below_threshold",
    "C74_rtd_integrals",
    "C74_rtd_refuted"
   ],
   "note": "First-order approaches for systems without ssq indexing and non-zero temperatures; RTD at the level of its integrals. The principal value integral of itype 0 is a function of its scaled arguments."
  },
  {
   "property": "C75",
   "status": "proved",
   "theorems": [
    "C75_kernels",
    "C75_currents",
    "C75_amplitudes",
    "C75_renumbered"
   ],
   "note": "First-order approaches for systems without ssq indexing. U may only connect leads with equal parameters."
  },
  {
   "property": "C76",
   "status": "proved",
   "theorems": [
    "C76_lindblad",
    "C76_phonons",
    "C76_population",
    "C76_vn1_refuted"
   ],
   "note": "Systems without ssq indexing. The claim for 1vN and Redfield is refuted with a witness (C76_vn1_refuted covers both)."
  },
  {
   "property": "C77",
   "status": "proved",
   "theorems": [
    "C77_tleads_entry",
    "C77_tleads",
    "C77_hsingle",
    "C77_same_matrix",
    "C77_hermitian",
    "C77_matrix_element_refuted"
   ],
   "note": "mtype=complex and labels that are natural numbers (negative labels, which numpy accepts, are not modelled)."
  },
  {
   "property": "C78",
   "status": "proved",
   "theorems": [
    "C78_first_law",
    "C78_second_law",
    "C78_carnot",
    "C78_joule",
    "C78_two_leads",
    "C78_solution",
    "C78_unresolved_refuted"
   ],
   "note": "Transition energies below the overflow guard of fermi_func (as in C70); energy differences of phonon-connected states zero or at least eps kT, without which the claim is refuted. The heat taken from a bath is a specification, qmeq computes no current for it."
  }
 ]
}