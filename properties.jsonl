{"id": "C01", "title": "State index round trip", "statement": "For a fresh StateIndexing, get_ind(get_state(k)) = k for every state index k < nmany and get_state(get_ind(s)) = s for every occupation list s of length nsingle; so the state order is a permutation of all 2^nsingle Fock states, whatever indexing is requested (including the documented fallback to 'Lin').", "quantifier": "every nsingle >= 1, every indexing in {Lin, charge, sz, ssq, other}, every state index and every occupation list", "why_tests_cant": "Tests check nsingle=4 only; the claim is over every number of single-particle states.", "anchors": ["qmeq/indexing.py: StateIndexing.__init__, get_state, get_ind, make_inverse_map, binarylist_to_integer, integer_to_binarylist"]}
{"id": "C02", "title": "Charge blocks partition the states", "statement": "get_lst(charge) lists exactly the state indices whose occupation list has that many electrons, each exactly once, and the blocks for charge 0..nsingle together list every state index once; for 'charge', 'sz' and 'ssq' each block is a contiguous increasing range.", "quantifier": "every nsingle, every indexing, every charge", "why_tests_cant": "Needs every nsingle; unit tests pin four particular lists.", "anchors": ["qmeq/indexing.py: construct_chargelst, enum_chargelst, StateIndexing.get_lst"]}
{"id": "C03", "title": "Spin-projection blocks partition the states", "statement": "With 'sz' or 'ssq' indexing and even nsingle, get_lst(charge, sz) for sz in szrange(charge) lists exactly the states with that charge and that up-minus-down count, each once, contiguous; szrange lists exactly the attainable sz values and sz_to_ind is a bijection from it onto list positions.", "quantifier": "every even nsingle, every charge, every sz", "why_tests_cant": "Needs every even nsingle and every (charge, sz).", "anchors": ["qmeq/indexing.py: sz_to_ind, szrange, construct_szlst, enum_szlst, StateIndexing.get_lst"]}
{"id": "C04", "title": "Total-spin blocks enumerate every state once", "statement": "With 'ssq' indexing the lists get_lst(charge, sz, ssq), read in loop order, enumerate 0..2^nsingle-1 exactly once, and the states listed under (charge, sz, any ssq) are exactly the states listed under (charge, sz).  The number of multiplets per (charge, ssq) does not depend on sz.", "quantifier": "every even nsingle", "why_tests_cant": "The block sizes are differences of binomial products; that they are never negative and that they telescope to the sz block size is a combinatorial fact about every nsingle.", "anchors": ["qmeq/indexing.py: ssq_to_ind, ssqrange, construct_ssqlst"]}
{"id": "C05", "title": "Quantum-number dictionaries are mutually inverse", "statement": "qn_ind and ind_qn are inverse bijections between the state indices and the quantum-number tuples, and ind_qn gives each state its true charge (and sz).", "quantifier": "every nsingle, every indexing", "why_tests_cant": "Dictionary updates silently overwrite on key collision; absence of collisions is a statement about all sizes.", "anchors": ["qmeq/indexing.py: make_quantum_numbers"]}
{"id": "C06", "title": "Removing Fock states keeps the indexing a bijection", "statement": "After any sequence of remove_fock_states calls, every removed Fock state has get_ind = None, the remaining Fock states are numbered bijectively 0..nmany-1 (get_ind and get_state mutually inverse on them), nmany is the number of states not removed, and get_lst(charge) still lists exactly the remaining states with that charge.", "quantifier": "every nsingle, every indexing, every finite sequence of removal calls with arbitrary (also repeated) states", "why_tests_cant": "Ranges over unbounded call histories; the tests make one call.", "anchors": ["qmeq/indexing.py: StateIndexing.remove_fock_states"]}
{"id": "C07", "title": "Zeroth-order density-matrix slots never collide", "statement": "get_ind_dm0(b, bp, charge, maptype=0) gives different slots for different (b, bp, charge) with b, bp in statesdm[charge], and every slot lies in [0, ndm0_) (npauli_ for the diagonal-only class).", "quantifier": "every list of considered states (any truncation), all three state-indexing classes", "why_tests_cant": "Ranges over every truncated state selection.", "anchors": ["qmeq/indexing.py: StateIndexingDM.set_dictdm, get_ind_dm0; StateIndexingPauli; StateIndexingDMc"]}
{"id": "C08", "title": "Reduced density-matrix numbering is exact", "statement": "get_ind_dm0(b, bp, charge) (maptype 1) maps the diagonal elements one-to-one onto 0..npauli-1 and the unordered off-diagonal pairs one-to-one onto npauli..ndm0-1 (for 'sz' only pairs of equal sz, the rest give -1); (b,bp) and (bp,b) share the number, exactly one of them is unique (maptype 2) and is not conjugated (maptype 3); inddm0 inverts the numbering.", "quantifier": "every list of considered states, indexing Lin/charge/sz, all classes", "why_tests_cant": "Correctness of a counter-based numbering for every selection of states.", "anchors": ["qmeq/indexing.py: StateIndexingDM.set_mapdm, get_ind_dm0; StateIndexingPauli.set_mapdm; StateIndexingDMc.set_mapdm"]}
{"id": "C09", "title": "First-order density-matrix slots never collide", "statement": "get_ind_dm1(c, b, bcharge) is injective over c in statesdm[bcharge+1], b in statesdm[bcharge], all charges, and its image is exactly [0, ndm1).", "quantifier": "every list of considered states", "why_tests_cant": "Ranges over every truncated state selection.", "anchors": ["qmeq/indexing.py: StateIndexingDM.set_dictdm, get_ind_dm1"]}
{"id": "C10", "title": "Density-matrix element counts", "statement": "npauli_, ndm0_, ndm1_ are the numbers of diagonal elements, same-charge pairs and neighbouring-charge pairs; with all states considered ndm0_ equals ndm0_tot = (2n)!/(n!)^2 and ndm1_ equals ndm1_tot = n/(n+1) ndm0_tot; without symmetry ndm0r = ndm0_.", "quantifier": "every nsingle", "why_tests_cant": "A binomial identity for every nsingle.", "anchors": ["qmeq/indexing.py: StateIndexingDM.__init__, set_statesdm"]}
{"id": "C11", "title": "Charge sectors outside 0..nsingle are empty", "statement": "Looking up the considered states of charge -1 or charge nsingle+1 (as all kernel generators do) yields the empty list and never raises or aliases a real sector.", "quantifier": "every list of considered states set through the API", "why_tests_cant": "Depends on Python negative indexing for every configuration; an off-by-one would only show as a wrong physical answer.", "anchors": ["qmeq/indexing.py: set_statesdm (append of [])", "qmeq/approach/base/pauli.py: generate_coupling_terms"]}
{"id": "C12", "title": "Selecting states does not modify the state indexing", "statement": "set_statesdm(lst) leaves chargelst (hence get_lst) unchanged, for every class.", "quantifier": "every class, every call history", "why_tests_cant": "An aliasing property over call histories.", "anchors": ["qmeq/indexing.py: StateIndexingPauli.set_statesdm, StateIndexingDM.set_statesdm, StateIndexingDMc.set_statesdm", "qmeq/builder/various.py: use_all_states"]}
{"id": "C13", "title": "Tunnelling matrix is the second-quantised tunnelling operator", "statement": "leads.Tba0[l] is exactly sum_i t_(l,i) d_i^dagger + conj(t_(l,i)) d_i in the Fock basis with Jordan-Wigner signs (operators satisfying the canonical anticommutation relations); it is Hermitian and only connects states whose charge differs by one.", "quantifier": "every nsingle, indexing, set of removed Fock states, set of amplitudes", "why_tests_cant": "Sign errors appear only for particular many-electron states; the claim covers every number of levels.", "anchors": ["qmeq/leadstun.py: construct_Tba, LeadsTunneling._init_coupling"]}
{"id": "C14", "title": "Single-particle Hamiltonian is the second-quantised hopping operator", "statement": "hamlst contribution of hsingle={(i,j):h} equals h d_j^dagger d_i plus, for i!=j with herm_hs, its Hermitian conjugate; the block is Hermitian (real diagonal entries given) and building a charge block never fails.", "quantifier": "every nsingle, indexing, removed states, hsingle dictionary", "why_tests_cant": "Sign structure for every number of levels.", "anchors": ["qmeq/qdot.py: construct_ham_hopping"]}
{"id": "C15", "title": "Coulomb Hamiltonian is the second-quantised two-body operator", "statement": "hamlst contribution of coulomb={(m,n,k,l):U} equals U d_m^dagger d_n^dagger d_k d_l (plus the conjugate term exactly when herm_c asks for it); the block is Hermitian when the keys are; building a charge block never fails.", "quantifier": "every nsingle, indexing, removed states, coulomb dictionary", "why_tests_cant": "Four-index sign structure for every number of levels.", "anchors": ["qmeq/qdot.py: construct_ham_coulomb"]}
{"id": "C16", "title": "Electron-phonon matrix is the second-quantised coupling operator", "statement": "Vbbp0[l] equals sum V_ij d_i^dagger d_j in the Fock basis, conserves the charge, and is Hermitian when V is.", "quantifier": "every nsingle, indexing, removed states, coupling dictionary", "why_tests_cant": "Sign structure for every number of levels.", "anchors": ["qmeq/baths.py: elph_construct_Vbbp"]}
{"id": "C17", "title": "Spin operators satisfy the spin algebra", "statement": "The matrices of S+ and S- between neighbouring sz blocks are transposes of each other, S+S- - S-S+ acts as multiplication by 4 sz (units of the code), S^2 is symmetric, its integer halving is exact, and S^2 gives the same matrix from either one of the two products.", "quantifier": "every even nsingle, charge, sz", "why_tests_cant": "An operator identity over all sizes.", "anchors": ["qmeq/qdot.py: operator_sm, operator_sp, operator_ssquare"]}
{"id": "C18", "title": "Hamiltonian history independence", "statement": "After any sequence of add and change calls on the dot parameters, the stored many-body Hamiltonian equals the one freshly constructed from the currently stored hsingle and coulomb; change sets the named entries to the given values and leaves others alone; repeating a change has no effect.", "quantifier": "every finite sequence of add/change calls", "why_tests_cant": "Unbounded histories with incremental updates.", "anchors": ["qmeq/qdot.py: QuantumDot.add, QuantumDot.change, _init_hamiltonian"]}
{"id": "C19", "title": "Tunnelling history independence", "statement": "After any sequence of add and change calls on tleads, Tba0 equals the matrix freshly constructed from the stored tleads, and the stored tleads_array agrees with the stored tleads.", "quantifier": "every finite sequence of add/change calls", "why_tests_cant": "Unbounded histories with incremental updates of redundant copies.", "anchors": ["qmeq/leadstun.py: LeadsTunneling.add, LeadsTunneling.change, make_tleads_array"]}
{"id": "C20", "title": "Electron-phonon history independence", "statement": "After any sequence of add and change calls on velph, Vbbp0 equals the matrix freshly constructed from the stored velph.", "quantifier": "every finite sequence of add/change calls", "why_tests_cant": "Unbounded histories with incremental updates.", "anchors": ["qmeq/baths.py: PhononBaths.add, PhononBaths.change"]}
{"id": "C21", "title": "Rotation to the eigenbasis is a similarity transformation", "statement": "The block-wise rotation used for 'charge' indexing gives the same matrix as the full rotation P^dagger Tba0 P used for 'Lin' (for Tba0 that only connects neighbouring charges); rotation preserves Hermiticity and the charge selection rule for any block matrices.", "quantifier": "every block structure, all eigenvector matrices, all Tba0 of the constructed form", "why_tests_cant": "Needs all sizes and all eigenvector matrices.", "anchors": ["qmeq/leadstun.py: rotate_Tba, construct_full_pmtr", "qmeq/baths.py: elph_rotate_Vbbp"]}
{"id": "C22", "title": "Every state receives its own energy", "statement": "construct_Ea_manybody writes each eigenvalue of each block to exactly one state index and every state index receives exactly one eigenvalue, for every indexing.", "quantifier": "every nsingle, indexing, eigenvalue lists of matching block sizes", "why_tests_cant": "Needs every size.", "anchors": ["qmeq/qdot.py: construct_Ea_manybody"]}
{"id": "C23", "title": "Pauli kernel conserves probability", "statement": "Every column of the Pauli kernel sums to zero, whatever the tunnelling matrix, energies and lead functions.", "quantifier": "every list of considered states, number of leads, coupling values (indexing without ssq)", "why_tests_cant": "A cancellation across loops for every system.", "anchors": ["qmeq/approach/base/pauli.py: generate_kern, generate_coupling_terms", "qmeq/approach/kernel_handler.py: set_matrix_element_pauli"]}
{"id": "C24", "title": "Pauli currents obey the conservation laws", "statement": "For every phi0 the particle currents summed over leads equal the charge-weighted kernel action and the energy currents summed over leads equal the energy-weighted kernel action; hence both sums vanish for a stationary phi0; heat current is energy current minus mu times current.", "quantifier": "every system, every phi0", "why_tests_cant": "An identity for every system.", "anchors": ["qmeq/approach/base/pauli.py: generate_current"]}
{"id": "C25", "title": "Pauli equilibrium is exact", "statement": "If all leads have one chemical potential and one temperature, the grand-canonical Gibbs vector is annihilated by the Pauli kernel and the current, energy current and heat current of each lead vanish separately at that vector, also when transitions lie outside the bandwidth. Transitions further than 709.77 kT above the chemical potential, where fermi_func returns 0, are excepted; there the deviation is at most 2*pi*exp(-709.77) times coupling and population.", "quantifier": "every system (all sizes, couplings, energies), every mu and T>0", "why_tests_cant": "A statement about real-valued functions on every system.", "anchors": ["qmeq/approach/base/pauli.py", "qmeq/specfunc/specfunc.py: func_pauli, fermi_func"]}
{"id": "C26", "title": "Pauli rates are non-negative", "statement": "For a Hermitian tunnelling matrix every off-diagonal kernel entry is >= 0 and every diagonal entry is <= 0.", "quantifier": "every system", "why_tests_cant": "A sign statement over every system.", "anchors": ["qmeq/approach/base/pauli.py: generate_fct", "qmeq/specfunc/specfunc.py: func_pauli"]}
{"id": "C27", "title": "Lindblad kernel and currents obey conservation laws", "statement": "For every density vector the trace rows of the Lindblad kernel cancel, and the lead-summed particle (energy) current equals the charge- (energy-) weighted kernel action.", "quantifier": "every system, jump matrix, density vector", "why_tests_cant": "Cancellation across loops and real/imaginary splitting for every system.", "anchors": ["qmeq/approach/base/lindblad.py: generate_coupling_terms, generate_current", "qmeq/approach/kernel_handler.py: set_matrix_element, get_phi0_element"]}
{"id": "C28", "title": "1vN kernel and currents obey conservation laws", "statement": "For every density vector the trace rows of the 1vN kernel cancel, and for Hermitian tunnelling the lead-summed particle current equals the charge-weighted kernel action.", "quantifier": "every system, lead integrals, density vector", "why_tests_cant": "Cancellation across loops and real/imaginary splitting for every system.", "anchors": ["qmeq/approach/base/neumann1.py: generate_coupling_terms, generate_current"]}
{"id": "C29", "title": "Redfield kernel and currents obey conservation laws", "statement": "As for 1vN, for the Redfield kernel and current.", "quantifier": "every system, lead integrals, density vector", "why_tests_cant": "Cancellation across loops and real/imaginary splitting for every system.", "anchors": ["qmeq/approach/base/redfield.py: generate_coupling_terms, generate_current"]}
{"id": "C30", "title": "Electron-phonon terms conserve probability and charge", "statement": "Adding the electron-phonon terms to the Pauli, Lindblad, Redfield or 1vN kernel changes neither the trace-row sums nor the charge-weighted row sums.", "quantifier": "every system, phonon couplings and bath integrals", "why_tests_cant": "Cancellation across loops for every system.", "anchors": ["qmeq/approach/elph/pauli.py, lindblad.py, redfield.py, neumann1.py: generate_coupling_terms"]}
{"id": "C31", "title": "Replacing one equation by normalisation loses nothing", "statement": "With symq=True any exact solution of the system actually solved is stationary in the replaced row too and has unit trace, for every norm_row that is a diagonal row; after solving, the stored kernel is the generated kernel again, also when the solver fails.", "quantifier": "every kernel with cancelling trace rows, every admissible norm_row", "why_tests_cant": "A linear-algebra statement for every kernel.", "anchors": ["qmeq/approach/aprclass.py: solve_kern, generate_norm_vec"]}
{"id": "C32", "title": "Matrix-free residual agrees with the kernel", "statement": "For every density vector the matrix-free evaluation gives, row by row, the product of the assembled kernel with that vector (up to an overall sign on rows of imaginary parts), so both methods have the same stationary states; the replaced row is trace minus one.", "quantifier": "every system, every density vector, approaches Lindblad/Redfield/1vN/Pauli", "why_tests_cant": "Equality of two programs over all inputs.", "anchors": ["qmeq/approach/aprclass.py: generate_vec", "qmeq/approach/kernel_handler.py: KernelHandlerMatrixFree"]}
{"id": "C33", "title": "Density matrix read-out is Hermitian", "statement": "The element read for (bp, b) is the complex conjugate of the element read for (b, bp), diagonal elements are real, and the sum of diagonal elements equals norm_vec times phi0.", "quantifier": "every system, every vector", "why_tests_cant": "Needs every index layout.", "anchors": ["qmeq/approach/kernel_handler.py: get_phi0_element, get_phi0_norm", "qmeq/approach/aprclass.py: generate_norm_vec"]}
{"id": "C34", "title": "Solving is repeatable", "statement": "After any sequence of state selections, parameter changes and solve calls, the arrays used by solve have the sizes of the current state selection and contain no leftover contribution of earlier solves; the result depends only on the current parameters.", "quantifier": "every finite sequence of use_all_states/remove_states/remove_coherences/solve calls", "why_tests_cant": "Unbounded call histories over cached arrays.", "anchors": ["qmeq/approach/aprclass.py: prepare_kern, clean_arrays, prepare_arrays, solve", "qmeq/builder/various.py: remove_coherences, remove_states, use_all_states"]}
{"id": "C35", "title": "Reported success means the requested solver ran", "statement": "If solve reports success then phi0 was produced by the requested solution method from the current kernel.", "quantifier": "every solmethod value accepted by the API, every call history", "why_tests_cant": "Ranges over option values and histories (stale result reuse).", "anchors": ["qmeq/approach/aprclass.py: solve_kern, prepare_solver", "qmeq/builder/validation.py: validate_solmethod"]}
{"id": "C36", "title": "Lead function bounds and symmetry", "statement": "func_pauli returns two values in [0, 2*pi] that either are both 0 (transition outside the band) or sum to 2*pi; their ratio is the Boltzmann factor; the Fermi function is decreasing and satisfies f(x)+f(-x)=1, the last two up to the overflow guard at x=709.77, beyond which the error is below exp(-709.77).", "quantifier": "all real energies, chemical potentials, temperatures > 0, band limits", "why_tests_cant": "Real-valued statement over a continuum.", "anchors": ["qmeq/specfunc/specfunc.py: fermi_func, func_pauli"]}
{"id": "C37", "title": "Option validation is total and idempotent", "statement": "Each option validator returns an allowed value for every input, returns allowed inputs unchanged, and applying it twice equals applying it once; the combined builder validation never leaves an inconsistent combination.", "quantifier": "all option values", "why_tests_cant": "Over all strings/values and all combinations.", "anchors": ["qmeq/builder/validation.py", "qmeq/builder/builder_base.py"]}
{"id": "C38", "title": "Sorting eigenstates is a permutation", "statement": "sort_eigenstates orders the states by the requested keys and states_order is always a permutation of all state indices; ties are resolved as documented.", "quantifier": "every energy/charge/spin assignment, every requested key list", "why_tests_cant": "Over all inputs.", "anchors": ["qmeq/builder/various.py: multiarray_sort, sort_eigenstates"]}
{"id": "C39", "title": "State selection by energy", "statement": "remove_states(dE) keeps exactly the states with energy below the lowest energy plus dE, in every charge block, for every sequence of selections; use_all_states restores all states.", "quantifier": "every energies list, every dE, every call history", "why_tests_cant": "Unbounded call histories.", "anchors": ["qmeq/builder/various.py: remove_states, use_all_states"]}
{"id": "C40", "title": "Removing coherences", "statement": "remove_coherences(dE) excludes exactly the off-diagonal elements whose energies differ by more than dE (as its docstring says), keeps all diagonal elements and renumbers the kept elements contiguously, for every sequence of calls.", "quantifier": "every energies list, every dE, every call history", "why_tests_cant": "Unbounded call histories.", "anchors": ["qmeq/builder/various.py: remove_coherences"]}
{"id": "C41", "title": "RTD second-order kernel conserves probability", "statement": "Every column of the lead-resolved RTD diagonal kernel sums to zero whatever the diagram values; hence the lead-summed current equals the charge-weighted kernel action.", "quantifier": "every system, every diagram value", "why_tests_cant": "Cancellation across symmetry-related insertions for every system.", "anchors": ["qmeq/approach/base/RTD.py: generate_row_1st_order_kernel, generate_current", "qmeq/approach/kernel_handler.py: add_element_2nd_order, set_matrix_element_dd"]}
{"id": "C42", "title": "2vN kernel conserves probability and charge", "statement": "The trace rows of the 2vN kernel cancel for every first-order table; the kernel maps adjoints to minus adjoints; the charge-weighted action on a Hermitian phi0 is i times the sum of the lead currents, so for a stationary Hermitian phi0 the currents sum to zero; a successful solve gives a stationary phi0 of unit trace, Hermitian if the equations determine it. (Fails for systems in which some coherences carry no number: removed coherences, 'sz' indexing.)", "quantifier": "every system with 'Lin' or 'charge' indexing after any calls of set/use-all/remove-Fock-states, every phi1 table", "why_tests_cant": "Cancellation across loops for every system.", "anchors": ["qmeq/approach/base/neumann2.py: generate_kern, generate_current"]}
{"id": "C43", "title": "Spin symmetry doubles the parameters", "statement": "With symmetry='spin' the stored hsingle/tleads/velph dictionaries contain each given element once for each spin with equal value and nothing else, the Coulomb dictionary contains the four spin combinations, and the resulting Hamiltonian commutes with exchanging the spins.", "quantifier": "every input dictionary over nsingle/2 levels", "why_tests_cant": "Over all dictionaries; key collisions silently overwrite.", "anchors": ["qmeq/qdot.py: make_hsingle_dict, make_coulomb_dict", "qmeq/leadstun.py: make_tleads_dict", "qmeq/baths.py: make_velph_dict"]}
{"id": "C44", "title": "Lead parameter changes touch only the named leads", "statement": "change(mulst/tlst/dlst) with a dictionary changes exactly the named leads (and their spin partners), with a number or list sets all; add adds to exactly those.", "quantifier": "every parameter array, every change sequence", "why_tests_cant": "Unbounded histories and aliasing of array slices.", "anchors": ["qmeq/leadstun.py: make_array, make_array_dlst, LeadsTunneling.change, LeadsTunneling.add"]}
{"id": "C45", "title": "Density-matrix element read-out by state", "statement": "get_phi0(b, bp) returns the solved density-matrix element for considered states and 0 for states that are not considered; get_phi1 likewise.", "quantifier": "every state selection, every pair of states", "why_tests_cant": "Over all pairs and selections (stale index tables).", "anchors": ["qmeq/builder/various.py: get_phi0, get_phi1"]}
{"id": "C46", "title": "The assembled kernels are the master equations", "statement": "Acting with the kernel on any solution vector and reading the result as an operator gives, for every included density-matrix element, the operator -i[H,rho] + sum over leads of that approach's lead term: the two-jump Lindblad dissipator, the first-order von Neumann commutator [T, Phi+Phi^+], the Redfield commutator [T, D rho + rho D^+]; for Pauli the gain-loss rate equation.", "quantifier": "every system (levels, indexing, state selection, coherence removal), every Hermitian tunnelling matrix, every table of energy integrals, every vector", "why_tests_cant": "Every off-diagonal row of a kernel whose entries come from many gated loops over index tables; a wrong index or sign in a coherence term shows up in no trace or current rule.", "anchors": ["qmeq/approach/base/pauli.py: ApproachPauli.generate_coupling_terms", "qmeq/approach/base/lindblad.py: ApproachLindblad.generate_coupling_terms", "qmeq/approach/base/neumann1.py: Approach1vN.generate_coupling_terms", "qmeq/approach/base/redfield.py: ApproachRedfield.generate_coupling_terms", "qmeq/approach/kernel_handler.py: KernelHandler"]}
{"id": "C47", "title": "Each lead's current is the change of the electron number caused by that lead", "statement": "For each single lead and any solution vector (stationary or not) the reported current is the sum over states of electron number times the change of that state's probability caused by that lead's term of the master equation; for Pauli and Lindblad the same holds for the energy current with the energies.", "quantifier": "every system, lead, tunnelling matrix, vector", "why_tests_cant": "Per-lead statement over all inputs; only the sum over leads is constrained by conservation.", "anchors": ["qmeq/approach/base/pauli.py: ApproachPauli.generate_current", "qmeq/approach/base/lindblad.py: ApproachLindblad.generate_current", "qmeq/approach/base/neumann1.py: Approach1vN.generate_current", "qmeq/approach/base/redfield.py: ApproachRedfield.generate_current"]}
{"id": "C49", "title": "The electron-phonon terms are the phonon parts of the master equations", "statement": "With phonon baths, acting with the kernel on any solution vector and reading the result as an operator gives the master equation of the electronic approach plus, for every bath, that approach's phonon term: for Lindblad two charge-conserving jump operators, for 1vN and Redfield the commutator form with the bath integrals, for Pauli the gain-loss equation with the phonon rates.", "quantifier": "every system with phonon baths (levels, indexing, state selection, removal of Fock states and coherences on both indexing objects), every coupling matrix V, every table of bath integrals, every vector", "why_tests_cant": "The phonon terms are looked up through a second indexing object whose gates must agree with the first for every pair of states; a swapped index or conjugate changes coherences only.", "anchors": ["qmeq/approach/elph/pauli.py: ApproachPauli.generate_coupling_terms", "qmeq/approach/elph/lindblad.py: ApproachLindblad.generate_coupling_terms", "qmeq/approach/elph/neumann1.py: Approach1vN.generate_coupling_terms", "qmeq/approach/elph/redfield.py: ApproachRedfield.generate_coupling_terms", "qmeq/builder/builder_elph.py: BuilderElPh.create_si_elph"]}
{"id": "C50", "title": "Phonon rates are non-negative and thermalise", "statement": "With phonon baths the Pauli kernel is the rate equation with the golden-rule rates of leads and baths: every off-diagonal entry is >= 0, every diagonal entry <= 0, and if leads and baths have one temperature (and the leads one chemical potential) the grand-canonical Gibbs vector is annihilated, provided every pair of connected states is degenerate or at least eps_elph kT apart.", "quantifier": "every system with phonon baths, every coupling matrix, energies, density of states >= 0, cutoffs", "why_tests_cant": "The rates go through a second indexing object with ordered pairs; exchanging the pair exchanges emission and absorption and no conservation law notices.", "anchors": ["qmeq/approach/elph/pauli.py: ApproachPauli.generate_fct, generate_coupling_terms", "qmeq/specfunc/specfunc_elph.py: FuncPauliElPh"]}
{"id": "C51", "title": "Without coherences the four first-order approaches agree", "statement": "For a Hermitian tunnelling matrix the population block of the Lindblad, 1vN and Redfield kernels equals the Pauli kernel entry by entry; for every vector without coherences each lead's current and energy current are the same in the four approaches.", "quantifier": "every system, energies, couplings, lead parameters, itype 0 to 3, every vector without coherences", "why_tests_cant": "Relates four implementations (different tables, loops and formulas) on all inputs.", "anchors": ["qmeq/approach/base/pauli.py", "qmeq/approach/base/lindblad.py", "qmeq/approach/base/neumann1.py", "qmeq/approach/base/redfield.py", "qmeq/specfunc/specfunc.py: func_pauli, func_1vN"]}
{"id": "C53", "title": "The spin multiplets are complete", "statement": "construct_manybody_eigenstates_ssq_all finds for every sz and every total spin of the range at least one state; the vectors of one sz block over all total spins are an orthonormal basis of the block and eigenvectors of S^2 with eigenvalue ssq(ssq+2); the number and the energies of the multiplets do not depend on sz and match the cells reserved by 'ssq' indexing; if the Hamiltonian commutes with S+ every vector is an eigenvector of the Hamiltonian of its block with the stored energy.", "quantifier": "every even number of single-particle states, charge, sz, ssq, Hermitian Hamiltonian, 'sz' and 'ssq' indexing, every correct eigh", "why_tests_cant": "That no ssq slice is ever empty and that dividing by sqrt(ssq(ssq+2)-sz(sz+-2)) normalises every ladder step is representation theory of su(2) for all sizes; tests see a few small systems.", "anchors": ["qmeq/qdot.py: ssquare_eigenstates (338-376)", "qmeq/qdot.py: construct_manybody_eigenstates_ssq_all (460-540)"]}
{"id": "C48", "title": "With 'ssq' indexing one number stands for a multiplet", "statement": "If the considered states are whole multiplets, a diagonal element's number is below npauli and shared by exactly the states of its multiplet; a coherence between states of equal projection and total spin has a number in [npauli, ndm0) shared by exactly the pairs of partner states (StateIndexingDM: in both orders, one of them conjugated), every other coherence has -1; booldm0 is true for exactly one element of a number, the one between the states with sz = -S; every number is used and inddm0 gives that element.", "quantifier": "StateIndexingPauli, DM and DMc, every even number of single-particle states, every sequence of use_all_states and set_statesdm calls whose result considers whole multiplets", "why_tests_cant": "Needs that every multiplet of the enumeration is complete and that no two of the nested partner writes hit the same slot, for all sizes.", "anchors": ["qmeq/indexing.py: StateIndexingPauli.set_mapdm, StateIndexingDM.set_mapdm, StateIndexingDMc.set_mapdm, make_quantum_numbers"]}
{"id": "C52", "title": "The first-order amplitudes are the integrals they stand for", "statement": "func_1vN with itype=0 returns, for f the Fermi function and f-1, the principal value of the integral over the band of f/(x-alpha) and (f-1)/(x-alpha), with imaginary part -pi times the numerator at alpha exactly when alpha lies inside the band; the energy amplitudes are the same integrals with the numerator multiplied by the energy mu+T x, up to 3 T exp(-40) from the approximation of log(1+exp(-R)), exactly when -40 <= Rm and Rp <= 709.77.", "quantifier": "every energy off the band edges, every mu, T>0, Dm<Dp; every quad that returns the principal value for cur0", "why_tests_cant": "An identity between integrals over the reals for all parameters; a test compares floats at a few points to a tolerance and cannot separate the approximations from a wrong constant.", "anchors": ["qmeq/specfunc/specfunc.py: func_1vN (55-129)"]}
{"id": "C54", "title": "With symmetry='spin' the Hamiltonian commutes with the total spin", "statement": "The many-body Hamiltonian that the parameters describe after any sequence of constructor, add and change calls commutes with the spin raising and lowering operators; with herm_hs and herm_c and real diagonal values it is Hermitian; hence the columns that construct_eigenstates writes for 'ssq' in the blocks other than the lowest |sz|, which it obtains with the ladder operators without looking at the Hamiltonian there, are eigenvectors of the Hamiltonian with the eigenvalue it writes beside them.", "quantifier": "every number of orbitals, every combination of herm_hs, herm_c, m_less_n, all hopping and Coulomb dictionaries whose keys name orbitals and in which an element has one name in the order the documentation asks for, every history; every eigh that diagonalises", "why_tests_cant": "The spin doubling of the Coulomb elements has a case per coincidence of the four orbitals and per option; the eigenvector claim is about all Hamiltonians and all block sizes.", "anchors": ["qmeq/qdot.py: make_coulomb_dict, make_hsingle_dict, construct_ham_coulomb, construct_ham_hopping, construct_eigenstates_ssq"]}
{"id": "C55", "title": "The RTD off-diagonal corrections eliminate the coherences of the 1vN master equation", "statement": "Adding the off-diagonal corrections to the RTD kernel of a lead acts on a vector of probabilities as the lead terms of the 1vN master equation act on the coherences that solve 0 = -i (E_s-E_t) X_st + (sum of the lead terms of the probabilities)_st; with the first-order rates it is the diagonal of the 1vN lead terms on probabilities and these coherences together. The coherences exist, are unique and Hermitian. Pairs of equal energy drop out; gaps smaller than 1e-10 count as 1e-10. For a band symmetric around zero the RTD amplitudes are the ones the 1vN approaches use.", "quantifier": "every number of orbitals, 'charge' and 'Lin' indexing, every reachable set of kept states, all energies, tunnelling amplitudes with Hermitian tLba, Fermi and phi functions, every probability vector, every lead", "why_tests_cant": "The correction is a product of four index tables built in three different loops; equality with the elimination of the coherences is an algebraic identity over all systems, while the tests compare currents of one small system.", "anchors": ["qmeq/approach/base/RTD.py: generate_col_nondiag_kern_1st_order_nd (771-884), generate_row_inverse_Liouvillian (886-915), generate_row_1st_order_kernel, add_off_diag_corrections", "qmeq/approach/kernel_handler.py: add_matrix_element, add_element_Lnn"]}
{"id": "C56", "title": "Results do not depend on which eigenvectors the eigensolver returns", "statement": "Take two sets of orthonormal eigenvectors of the same Hamiltonian with the same eigenvalues (different phases, or another basis of a degenerate subspace). The rotated tunneling amplitudes are then related by a unitary U that mixes states of equal charge and energy only. For 1vN, Redfield and Lindblad the kernel of the second set acts on the rotated density matrix as the kernel of the first set acts on the original one, every stationary state of one corresponds to a stationary state of the other with the same trace, and particle and energy current of every lead are equal. For Pauli this holds for phases; for another basis of a degenerate subspace it is false.", "quantifier": "every number of orbitals, 'Lin', 'charge' and 'sz' indexing, every set of considered states and kept coherences that U does not mix with dropped ones, all energies and amplitudes, all temperatures, potentials and bands, every integration type, every vector phi0", "why_tests_cant": "The tests run one LAPACK build, which returns one choice of eigenvectors; the claim compares all choices.", "anchors": ["qmeq/qdot.py: construct_eigenstates", "qmeq/leadstun.py: construct_full_pmtr, rotate_Tba", "qmeq/approach/base/neumann1.py, redfield.py, lindblad.py, pauli.py: generate_fct, generate_kern, generate_current"]}
{"id": "C57", "title": "The FFT Hilbert transform is the exact principal value transform of the piecewise linear function", "statement": "hilbert_fredriksen, with the kernel of kernel_fredriksen and the FFT given by its definition, returns at every grid point -1/pi times the principal value integral of f(x)/(x - x_j), where f is the continuous function that is linear between the grid points and falls linearly to zero one step outside the grid. get_htransf_fk returns the padded Fermi function and this transform minus i times the function; get_htransf_phi1k does the same for every column of the complex table. A kernel cached for another length is replaced.", "quantifier": "every number of grid points, every real or complex list of values, every step width, every padding, every earlier cached kernel", "why_tests_cant": "The tests compare a few transforms with stored numbers at one tolerance; that the FFT convolution equals the integral is an identity for all lengths and inputs.", "anchors": ["qmeq/specfunc/specfunc.py: kernel_fredriksen, hilbert_fredriksen (133-177)", "qmeq/approach/base/neumann2.py: get_htransf_phi1k, get_htransf_fk (16-100)"]}
{"id": "C58", "title": "Energy grid, interpolation and integration of the 2vN approach", "statement": "The extended grid is equidistant with the step of the grid, contains the grid as the points kpnt_left ... and is the shortest such grid that reaches ext_fct times the needed extension. func_2vN and get_at_k1 return pi times the linear interpolation between neighbouring grid points (conjugated on request), and zero outside; for the Fermi functions this is the self-energy, the integral of f(x)/(E - x + i0), at the grid points. determine_phi1_phi0 is the exact integral of the piecewise linear function. For a band symmetric around zero and ext_fct >= 1 all energies at which the local kernel and the iteration evaluate these functions lie on the extended grid; for other bands this is false.", "quantifier": "every band, number of grid points >= 2, ext_fct, all eigenenergies, 'charge' and 'Lin' indexing with every reachable set of kept states, all tables", "why_tests_cant": "Off-by-one errors at the ends of the grid and energies outside of it change results only for particular levels and bands.", "anchors": ["qmeq/approach/base/neumann2.py: determine_emin_emax (152-179), determine_grid_ext (181-201), determine_phi1_phi0 (241-270), phi1k_local (424-537), phi1k_iterate (539-636), func_2vN (638-673), get_at_k1 (675-712)"]}
{"id": "C59", "title": "The 2vN iteration solves the discretised first-order equations", "statement": "After m calls of iteration() the table phi1k of the second von Neumann approach satisfies, at every grid point, lead and tunnelling pair, the linear first-order equation: energy difference times the element equals the first-order source terms of the density matrix, the second-order term with the local part evaluated with the present table, and the second-order term with the energy-shifted elements of the table before the last iteration; when the last correction vanishes both tables coincide and the table solves the self-consistent equation. func_2vN of the prepared Fermi functions is minus the principal value integral minus/plus i pi times the function. For density matrices with imaginary coherences the shifted elements are wrong, because conjugation does not exchange the elements (b,b') and (b',b).", "quantifier": "every grid, every number of iterations, all tunnelling amplitudes and eigenenergies, 'charge' and 'Lin' indexing with every reachable set of kept states, every density matrix with real elements (refuted for imaginary ones)", "why_tests_cant": "The tests compare currents of one small system at a fixed number of iterations; whether the table satisfies the equation for all systems, and that coherences are treated wrongly, is not visible there.", "anchors": ["qmeq/approach/base/neumann2.py: prepare_distribution (203-233), phi1k_local (424-537), phi1k_iterate (539-636), get_at_k1 (675-712), TermsCalculator2vN.iterate (375-422)", "qmeq/approach/aprclass.py: ApproachBase2vN.iteration (560-575)"]}
{"id": "C60", "title": "Repeated and continued 2vN calculations", "statement": "solve(niter=n) of the 2vN approach with restartq=True gives, after any history of parameter changes and solve calls (also ones that raised), the same iterations, results and exceptions as a new object with the present parameters; it succeeds exactly if kpnt >= 2, the band is not a single point and the local kernels are invertible, and iters then holds the results of 1, ..., n iterations, niter = 0, ..., n-1. solve(niter=n) followed by solve(niter=m, restartq=False) equals solve(niter=n+m). Once an iteration has been done, a continued calculation ignores new values of kpnt, dlst, ext_fct and tlst; the branch that announces a restart for a changed grid is never taken. An earlier kpnt=0 makes all later calls raise.", "quantifier": "every sequence of parameter changes and solve calls with every combination of the flags, every system, every number of iterations", "why_tests_cant": "History dependence through the cached grid and FFT kernel shows up only for particular sequences of calls; the tests make one call per object.", "anchors": ["qmeq/approach/aprclass.py: ApproachBase2vN.restart (493-509), iteration (558-571), solve (573-610)", "qmeq/approach/base/neumann2.py: prepare_kern (108-113), make_Ek_grid (128-150), get_htransf_fk (84-87)"]}
{"id": "C61", "title": "The RTD integrals at equal temperatures are continuous through their degenerate points", "statement": "For equal temperatures the direct and exchange integrals of the RTD approach equal the closed formulas (f(E1)+b(d))phi(d-E1)-... over E1-E2, respectively over d-E1-E2, whenever the denominators and d are at least 1e-10 in modulus. At the points where the formula is 0/0 (E1=E2; d=0; both; d=E1+E2; d=0 and E2=-E1) each of the special branches is exactly the limit of the closed formula, also as a joint limit in both variables. Both integrals are symmetric in the two energies, and integralD/integralX evaluate them at the reduced energies (E1-mu1)/T, (E3-mu1)/T resp. (E3-eta1*mu2)/T and (E2-mu1-eta1*mu2)/T with the factor pi/T.", "quantifier": "all real energies below the overflow guards, all Keldysh signs, bandwidths and temperatures, every function phi that is even, twice continuously differentiable with diff_phi and diff2_phi as derivatives", "why_tests_cant": "The special branches are hit only at exactly degenerate energies, where no other branch gives a reference value; a wrong sign there is invisible to tests at generic parameters.", "anchors": ["qmeq/specfunc/specfunc.py: _D_integral_equal_T (557-611), _X_integral_equal_T (614-658), integralD (460-505), integralX (507-554), diff_fermi, bose, phi, diff_phi, diff2_phi, delta_phi (200-335)"]}
{"id": "C62", "title": "Accuracy of the complex polygamma function", "statement": "For every complex U != 0 with Re U >= 0 and every order K = 1, ..., 4 the series (-1)^(K+1) K! sum_n 1/(U+n)^(K+1) converges and polygamma(U, K), evaluated in exact arithmetic with the decimal constants of the source, differs from its sum by at most 2e-17. In the left half plane this fails: at U = -1/2 the trigamma function is real, the code returns a number with an imaginary part above 1/2. Orders above 4 give 0.", "quantifier": "every complex argument in the closed right half plane except 0, orders 1 to 4", "why_tests_cant": "The error bound has to hold on an unbounded domain; a wrong digit in one of the 30 Bernoulli constants or a loop that is one term short changes values only in the last digits and only in parts of the plane.", "anchors": ["qmeq/specfunc/specfunc.py: polygamma (338-456)"]}
{"id": "C63", "title": "diff_phi and diff2_phi are the derivatives of phi", "statement": "The digamma function psi(z) = lim ln N - sum_{n<N} 1/(z+n) and the series for psi_1, psi_2 exist on Re z = 1/2; Re psi(1/2+iy) is even with derivative -Im psi_1 and Im psi_1 has the derivative Re psi_2, which is continuous. Hence, for phi built from the true digamma function, the values returned by diff_phi and diff2_phi (which call the approximation polygamma) differ from the first and second derivative of phi by at most 1e-17 at every real x, and the doubly degenerate branches of the direct and exchange integrals differ from the joint limits of the closed formulas by at most 3e-17.", "quantifier": "all real x, all bandwidths, all energies below the overflow guards, Keldysh signs +-1", "why_tests_cant": "It combines an error bound on an unbounded domain with the relation between two independently implemented functions (scipy's digamma and the polygamma of this project).", "anchors": ["qmeq/specfunc/specfunc.py: phi (246-269), diff_phi (271-290), diff2_phi (292-311), polygamma (338-456), _D_integral_equal_T (557-611), _X_integral_equal_T (614-658)"]}
{"id": "C64", "title": "Ozaki expansion of tanh", "statement": "For every even N = 2n > 0 and every eigensystem returned by eigh_tridiagonal (orthonormal eigenvectors of the tridiagonal matrix passed to it), Ozaki(N) fills exactly its N/2 rows without an IndexError, all reciprocal poles b_p and residues R_p are positive, and 4 x sum_p R_p/(x^2 + 1/b_p^2) equals Lambert's continued fraction y/(1 + y^2/(3 + ... + y^2/(2N-1))) at y = x/2, for every real x. It differs from tanh(x/2) by at most |x/2|^(2N+1)/((2N-1)!! (2N+1)!!), lies below tanh(x/2) for x > 0, and converges to it as N grows.", "quantifier": "all even N, all eigensystems, all real x", "why_tests_cant": "A test evaluates one N at a few points; the identity with the continued fraction and the error bound are for all N and x.", "anchors": ["qmeq/specfunc/specfunc.py: Ozaki (795-829)"]}
{"id": "C65", "title": "Compiled kernel handler and its parallel loop", "statement": "For every state-indexing object of class DM or DMc reached by any history (with 'ssq': whole multiplets) the compiled KernelHandler fills all_bbp with exactly the elements that have a number of their own, each once, without a read or write outside its arrays (with no_coherences: exactly the populations; all_ba: exactly the first-order elements). The prange loop of generate_kern then has no race: for every interleaving of the loads and stores of its iterations, and for any addition (also a rounded one), the kernel (and the matrix-free vector) is that of the sequential loop, and equals the kernel assembled by the Python code for Pauli, Lindblad, 1vN and Redfield. After remove_coherences removed anything, set_all_bbp writes outside its array.", "quantifier": "all numbers of levels, indexings, histories of state selection, tunnelling amplitudes, energies, thread schedules, addition functions", "why_tests_cant": "A test runs one schedule of one system; races and out-of-bounds writes (bounds checks are off) need not show.", "anchors": ["qmeq/approach/c_kernel_handler.pyx: KernelHandler (24-200), KernelHandlerMatrixFree", "qmeq/approach/c_aprclass.pyx: generate_kern (190-201)", "qmeq/approach/base/c_pauli.pyx, c_lindblad.pyx, c_neumann1.pyx, c_redfield.pyx: generate_coupling_terms"]}
{"id": "C66", "title": "Band widths cancel in the RTD kernel and currents", "statement": "If no many-body state was removed, the RTD kernel (second order, with or without off-diagonal corrections) and the charge currents are the same for all band widths of the leads, and the energy currents are the same when all band widths are multiplied by one number, although phi and integralD contain logarithms of the band widths: for amplitudes built from tleads and rotated to any orthonormal eigenvectors, real products of amplitudes, and a given list of Ozaki poles of which the same ones pass the test 1/n > D/T2. Likewise the logarithm in _D_integral, which divides by T1 where the digamma function next to it divides by T2, may be replaced by the one with T2 without changing kernel or currents. With a state removed the cancellation fails.", "quantifier": "all numbers of levels and leads, indexings 'Lin', 'charge', 'sz', tunnelling amplitudes, eigenvectors, energies, temperatures, chemical potentials, band widths", "why_tests_cant": "The cancellation is between different diagrams and needs all states; one numerical comparison shows neither why it holds nor that it fails with removed states.", "anchors": ["qmeq/approach/base/RTD.py: generate_col_diag_kern_2nd_order (448-649), generate_col_nondiag_kern_1st_order_dn/nd, generate_row_*_energy_kernel", "qmeq/specfunc/specfunc.py: phi, integralD (458-505), integralX (507-554), _D_integral (661-731), _X_integral (734-792)", "qmeq/leadstun.py: construct_Tba, rotate"]}
{"id": "C67", "title": "Systems given by their many-body states", "statement": "For a system built from many-body energies Ea, particle numbers Na and amplitudes Tba: construction raises exactly when the smallest number is positive or the largest is below -1; otherwise every state is in exactly one list and the diagonal elements get the numbers 0..len(Na)-1, one each. When the smallest number is 0 (or the largest is -1) list c holds the states with c more particles than the smallest number, the Pauli kernel is the golden-rule rate equation of the given states, the Lindblad, 1vN and Redfield kernels are their master equations, and the currents are the changes of the particle number and energy. With other numbers the kernel is the one of rotated numbers, so electrons move the wrong way. use_all_states and remove_states keep at most the first state or raise, get_phi0 and get_phi1 raise for every state but the first, and changing between 2vN and another approach drops every state but the first.", "quantifier": "all lists of particle numbers, energies, amplitudes, lead parameters, probability vectors; all three indexing classes for the lists and the numbering", "why_tests_cant": "Tests use numbers 0, 1, ... ; the wrong placement by a negative index raises nothing.", "anchors": ["qmeq/builder/builder_base.py: BuilderManyBody._init_state_indexing (341-359), change_si (164-172)", "qmeq/builder/various.py: get_phi0 (84-121), get_phi1, remove_states (285-306), use_all_states (309-321)", "qmeq/indexing.py: set_statesdm, set_dictdm", "qmeq/approach/base/pauli.py, lindblad.py, neumann1.py, redfield.py"]}
{"id": "C68", "title": "Band widths cancel in 1vN and Redfield with digamma integrals", "statement": "With itype=1 the principal parts of phi1fct and phi1fct_energy depend on the band edges Dm, Dp of the leads. If no many-body state is removed, the kernels, the currents and the energy currents of 1vN and Redfield do not change when the edges of every lead are changed so that |Dm|/|Dp| stays the same (symmetric bands of any width in particular), for any tunnelling amplitudes, energies and temperatures. With a removed state, or when only one edge moves, the kernels do change.", "quantifier": "all numbers of single-particle states and leads, amplitudes, eigenvector bases, energies, temperatures, nonzero band edges, density matrices", "why_tests_cant": "The cancellation holds for every system size and rests on the anticommutation relation of the lead operators; tests compare single numbers.", "anchors": ["qmeq/specfunc/specfunc.py: func_1vN (55-129)", "qmeq/approach/base/neumann1.py: generate_fct (33-62), generate_coupling_terms, generate_current", "qmeq/approach/base/redfield.py", "qmeq/leadstun.py: construct_Tba, rotate"]}
{"id": "C69", "title": "The stationary state of the Pauli approach is a probability distribution", "statement": "For the Pauli approach, with or without phonons, the linear system that solve_kern hands to the solver (symq=True, row norm_row replaced by the normalisation condition) always has a solution whose occupations lie between 0 and 1. If the solution is unique, every solution the solver can return has occupations between 0 and 1. If all many-body states are connected by transitions with nonzero golden-rule rates, the solution is unique and all occupations are positive; two states that are coupled to a lead inside its band are connected in both directions. Without uniqueness a returned solution may have negative occupations.", "quantifier": "all numbers of single-particle states, leads and phonon baths, Hermitian amplitudes, energies, chemical potentials, temperatures, band edges, itypes, norm_row", "why_tests_cant": "Existence, uniqueness and positivity of the solution hold for every system size and every choice of rates; tests see single systems.", "anchors": ["qmeq/approach/aprclass.py: solve_kern", "qmeq/approach/base/pauli.py: generate_fct, generate_coupling_terms", "qmeq/approach/elph/pauli.py", "qmeq/specfunc/specfunc.py: func_pauli, fermi_func"]}
{"id": "C70", "title": "Stationary Pauli currents obey the first and second law", "statement": "For a stationary state of the Pauli approach with nonnegative occupations (in particular for the unique solution of solve_kern's linear system) the heat currents satisfy sum_l heat_l/T_l <= 0 and sum_l heat_l = - sum_l mu_l current_l, provided no transition lies beyond the overflow guard of fermi_func. Hence at equal temperatures sum_l mu_l current_l >= 0; with two leads the current flows down the bias, heat flows from the hot to the cold lead and the output power is at most the Carnot efficiency times the heat from the hot lead. Beyond the guard there are systems with a positive entropy flow, where heat runs from the cold to the hot lead.", "quantifier": "all numbers of single-particle states and leads, Hermitian amplitudes, energies, chemical potentials, temperatures, band edges, itypes, stationary states", "why_tests_cant": "An inequality over all systems and bias points; the violation beyond the guard has a magnitude far below floating point resolution of a test.", "anchors": ["qmeq/approach/base/pauli.py: generate_current, generate_fct", "qmeq/specfunc/specfunc.py: func_pauli, fermi_func", "qmeq/approach/aprclass.py: solve_kern"]}
{"id": "C71", "title": "A common shift of levels, chemical potentials and band edges changes nothing but energy currents", "statement": "If every single-particle level, every chemical potential and (for integrals with a finite band) every band edge is raised by the same d, then each block of the Hamiltonian with N electrons is raised by N d times the identity, so eigenvectors stay and energies move by N d; the kernels of the Pauli, Lindblad, 1vN and Redfield approaches are unchanged call by call; for every density matrix the currents and heat currents are unchanged and the energy current of a lead grows by d times its current. If the band edges of a finite band are not moved along, the rates change.", "quantifier": "all numbers of levels and leads, indexings 'charge', 'sz', 'Lin' (and 'ssq' for the Hamiltonian), Hermitian flags, hoppings, interactions, amplitudes, energies, itypes, density matrices, shifts d", "why_tests_cant": "A symmetry over a continuum of shifts and all systems; floating point tests see it only up to rounding and at sampled systems.", "anchors": ["qmeq/qdot.py: construct_ham_hopping, construct_ham_coulomb, QuantumDot.add", "qmeq/specfunc/specfunc.py: func_pauli, func_1vN", "qmeq/approach/base/pauli.py", "qmeq/approach/base/lindblad.py", "qmeq/approach/base/neumann1.py", "qmeq/approach/base/redfield.py"]}
{"id": "C72", "title": "A common shift of levels and chemical potentials changes nothing in the RTD approach", "statement": "If the energy of every state with N electrons is raised by N d and every chemical potential by d, the RTD kernel (first and second order, with and without the off-diagonal corrections) and the currents are unchanged, and when all states are kept the energy current of a lead grows by d times its current. Band edges stay for itype 1 and 3; otherwise they move along and zero has to stay inside the band.", "quantifier": "all numbers of levels and leads, indexings 'charge', 'sz', 'Lin', amplitudes, energies, temperatures (equal or not), Ozaki poles, vectors, shifts d; all digamma and polygamma functions", "why_tests_cant": "A symmetry over a continuum of shifts and all systems that checks every energy argument of the 16 second-order diagram groups.", "anchors": ["qmeq/approach/base/RTD.py: generate_kern, generate_current, generate_col_diag_kern_2nd_order, generate_col_nondiag_kern_1st_order_nd, generate_col_nondiag_kern_1st_order_dn", "qmeq/specfunc/specfunc.py: integralD, integralX, _D_integral, _X_integral, phi"]}
{"id": "C73", "title": "The compiled digamma and polygamma(U, 0) are the digamma function", "statement": "For every complex z with Re z >= 0, z <> 0, digamma of the compiled module differs from psi(z) = lim ln n - sum_{k<n} 1/(z+k) by at most 6e-14, and polygamma(z, 0) by at most 3e-17 (exact arithmetic: truncation of the asymptotic series and decimals of its coefficients). In particular digamma(z+1) - digamma(z) = 1/z up to 1.2e-13. The recurrence with real numbers evaluates the complex polynomial. For Re z < 0 the compiled digamma is wrong by more than 1, for example at -1/2.", "quantifier": "all complex arguments in the closed right half plane except 0", "why_tests_cant": "A bound over a continuum of arguments, uniform in the imaginary part; tests compare a few values with scipy.", "anchors": ["qmeq/specfunc/c_specfunc.pyx: digamma, clog, Digamma_factors, polygamma", "qmeq/specfunc/specfunc.py: polygamma"]}
{"id": "C74", "title": "A change of units and a phase of each lead are symmetries of the first-order approaches", "statement": "Multiply many-body energies, chemical potentials, temperatures and band edges by s and the tunnelling amplitudes of lead l by a complex number rho_l with |rho_l|^2 = s (s = 1: a phase for each lead). Then the kernels of Pauli, Lindblad, 1vN and Redfield are multiplied by s entry by entry, the linear system with one row replaced by the normalisation has the same solutions, the currents are multiplied by s and energy and heat currents by s^2. construct_Tba turns the amplitudes accordingly. The integrals of the RTD approach scale like 1/s only if T2-T1 stays on the same side of the fixed thresholds 1e-5 (direct) and 1e-10 (exchange); below them T2 is not looked at, and for every non-empty list of positive poles there are units in which integralD does not scale.", "quantifier": "all sizes, layouts, amplitudes, energies, leads, scale factors, integral types 0-3 and vectors phi0", "why_tests_cant": "A symmetry under a continuous family of transformations; a test suite works in one unit system.", "anchors": ["qmeq/specfunc/specfunc.py: func_pauli, func_1vN, integralD, integralX", "qmeq/approach/base/pauli.py, lindblad.py, neumann1.py, redfield.py: generate_fct, generate_coupling_terms, generate_current", "qmeq/leadstun.py: construct_Tba"]}
{"id": "C75", "title": "Leads with the same parameters may be mixed, split, merged, padded and renumbered", "statement": "Replace nl leads by nl' leads whose tunnelling amplitudes are T'_l = sum_m U_lm T_m (conjugate coefficients for the removal amplitudes) with U+U = 1, where U_lm may differ from zero only if the new lead l has the chemical potential, temperature and band edges of the old lead m. Then the kernels of Pauli, Lindblad, 1vN and Redfield do not change at all, and for every group of leads (weights agreeing where U_lm is not zero) the sums of currents, energy currents and heat currents over the group are the same. Special cases: a lead split in two with amplitudes c and s, |c|^2+|s|^2=1; leads added with zero amplitude; leads renumbered, where every current moves with its lead. construct_Tba turns mixed tleads into mixed amplitudes.", "quantifier": "all sizes, layouts, numbers of leads before and after, isometries, amplitudes, energies, integral types and vectors phi0", "why_tests_cant": "A continuous family of equivalent systems with different numbers of leads; tests fix the leads.", "anchors": ["qmeq/approach/base/pauli.py, lindblad.py, neumann1.py, redfield.py: generate_fct, generate_coupling_terms, generate_current", "qmeq/leadstun.py: construct_Tba"]}
{"id": "C76", "title": "The Lindblad kernel points into the positive density matrices, 1vN and Redfield do not", "statement": "If the density matrix stored in phi0 is positive semidefinite and v is a vector it maps to zero, v having components only on states whose mutual coherences are kept, then the Lindblad kernel prescribes a time derivative of <v|rho|v> that is not negative: no eigenvalue can leave zero downwards, and the occupation of an empty state does not decrease. The same holds with phonon baths. The 1vN and Redfield kernels violate this: for two levels at energies 0 and 1 coupled to one lead with equal amplitudes there is a density matrix of trace 1 with an empty state 0 whose occupation both kernels decrease, for every integral type.", "quantifier": "all sizes, layouts, jump amplitudes, energies, numbers of leads, density matrices and vectors", "why_tests_cant": "Quantifies over all positive density matrices and vectors in their null space.", "anchors": ["qmeq/approach/base/lindblad.py: generate_coupling_terms, generate_fct", "qmeq/approach/base/neumann1.py, redfield.py: generate_coupling_terms"]}
{"id": "C77", "title": "The single-particle matrices determine the many-body matrices", "statement": "make_tleads_mtr raises exactly if a label is out of range; otherwise an entry is the sum of the amplitudes given for it, and two collections (lists or dictionaries, in any order, with repeated entries) with the same matrix give the same many-body amplitudes. make_hsingle_mtr gives a Hermitian matrix M if the diagonal entries given are real; the many-body Hamiltonian of construct_ham_hopping is sum_ij M_ij d_j^+ d_i, so that two collections with the same matrix give the same Hamiltonian. It is not sum_ij M_ij d_i^+ d_j: for hsingle[(0,1)] = i the element between the electron in level 0 and in level 1 is -i, not the documented matrix element i.", "quantifier": "all sizes, indexings, removed states, collections of amplitudes and hoppings", "why_tests_cant": "Quantifies over all collections with the same matrix; the tests use real hoppings, for which the transposition cannot be seen.", "anchors": ["qmeq/leadstun.py: make_tleads_mtr, construct_Tba", "qmeq/qdot.py: make_hsingle_mtr, construct_ham_hopping"]}
{"id": "C78", "title": "Stationary Pauli currents with phonon baths obey the first and second law", "statement": "In a stationary state of the Pauli approach with phonon baths, with all occupations positive, the heat currents of the leads and the heat taken from the baths sum to the electrical work done on the leads, and the entropy of leads and baths together does not decrease. Hence the electrical power got from baths hotter than the leads is at most Carnot's, and if leads and baths have one temperature no power is produced: with two leads no current flows against the bias. This needs energy differences of the states connected by phonons to be zero or at least eps kT; for levels closer than that a current does flow against the bias at one common temperature.", "quantifier": "all sizes, indexings except 'ssq', removed states, amplitudes, spectra, numbers of leads and baths, non-negative densities of phonon states", "why_tests_cant": "Inequality over all systems and stationary states; the tests compare currents of a few parameter sets with stored values.", "anchors": ["qmeq/approach/elph/pauli.py", "qmeq/specfunc/specfunc_elph.py: FuncPauliElPh", "qmeq/approach/base/pauli.py: generate_current"]}
