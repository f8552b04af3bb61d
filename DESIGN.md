# Formal model of agryman/acmpy in Rocq (Coq 8.16.1)

## Conventions

* Python `int` is modelled by `Z` (unbounded, as in Python).  `//` and `%` are
  `Z.div` / `Z.modulo` (floor division, as in Python).
* Exceptions are values: every function that can raise returns
  `res A := Ok a | Raise e`, with `e` the Python exception class.
* Python `float` is modelled by the real numbers `R` of the standard library:
  rounding, overflow, NaN and signed zero are **not** modelled.
* SymPy symbols are constructors of an inductive type; SymPy expressions used as
  numeric coefficients are real numbers.
* Tuples/lists are `list`; NumPy matrices are (rows, columns, entry function) or
  lists of rows, as stated at each definition.
* External numerics (`np.linalg.eigh`, `np.linalg.inv`, `scipy.special.poch`,
  files on disk) are parameters of the model; what is assumed about each is a
  visible hypothesis of the theorem that needs it.
* `Model` files contain definitions only.  `Spec` files contain the independent
  vocabulary used by the theorem statements.  `Props` files contain the property
  theorems, each followed by `Print Assumptions`, and `Example`s showing that the
  hypotheses are satisfied by a concrete non-trivial case.
* If the code violates what its documentation promises, the theorem states the
  exact law the code obeys and a companion `*_refuted` theorem gives the witness
  against the documented claim.

## Plan per property

| id | modelled | how it is proved |
|----|----------|------------------|
| C01 | `dimSO5r3` branch by branch on `Z` | count of `p` in the tau-rule is shown to satisfy v -> v-3 recursion; `lia` with div/mod |
| C02 | `dimSO5r3_allL`, `dimSO5r3_rngVallL` | sums exchanged through the tau-rule, induction v -> v+3 |
| C03 | `dimSO3`, `dimSO5` | same induction with weights 2L+1 |
| C04 | all `lbs*`/`dim*` functions of spherical_space.py | lemmas on `flat_map` over integer ranges: membership, NoDup, length, strong sortedness |
| C05 | `lbsSO5r3_rngVvarL` with `L_max=None` | equation with a `filter` of the correct list; `_refuted` witness |
| C06, C07 | `lbsXspace`, `dimXspace`, `lbsRadial`, `dimRadial` | `flat_map` lemmas, `nth_error` index arithmetic |
| C08, C09 | strings of ASCII characters, decimal printing and the regular expressions of so5cg.py | induction on digit strings |
| C10 | `CG_labels` | `flat_map` lemmas |
| C11-C14 | `CG_SO5r3`, `load_CG_table`, the module-level cache and config as an explicit state; the file system as a function from paths to lists of reals | state invariants by induction over call histories |
| C15 | `CG_SO3`, `Wigner_3j` on doubled integers | `lia` on the factorial arguments |
| C16 | `Parse_RadialOp_List` | induction on the word, monoid laws |
| C17, C18 | `Lambda_RadialOp_List` loop by loop | loop invariants by list induction |
| C19, C20 | `Lambda_Splits`, `RepRadial_bS_DS` as a trace of elementary matrices | loop invariant, monoid denotation |
| C21, C22 | `RepRadial_Prod_common`, `RepRadialshfs_Prod` | composition of C16-C20 |
| C23-C26 | matrix element functions over `R`; `poch` through any function satisfying the Gamma functional equation | field/sqrt algebra, finite sums |
| C27, C28 | operator sums as lists | list induction; `ring` |
| C29, C30 | closed forms over `R` | sqrt algebra |
| C31 | lambda functions | `lia`, real floor |
| C32-C34 | settings as a record, setters as state transformers | invariant over call lists |
| C35-C37 | block assembly loops | loop invariants |
| C38-C43 | full_space.py driver and display functions, output as a list of printed records | list induction, `lia` |
| C44 | memo tables as explicit state | invariant over histories, counterexample history |
| C45, C46 | hamiltonian_data.py over `R` | polynomial sign analysis, derivatives from the standard library |
| C47, C48 | `Eigenfiddle` symmetrisation, compat.py validators | direct |
| C49 | `CG_SO5r3` with a scalar factor | the selection rules force equal labels; the value 1 is a hypothesis on the data files |
| C50 | `CG_SO3`, `Wigner_3j` | coupling of angular momenta built independently (AngMom.v): ladder recursions, orthonormality, uniqueness up to the sign fixed by Condon-Shortley |
| C51 | `RepSO5_Y_rem`, `RepSO5r3_Prod_rem`, `RepSO5_Y_alg`, diagonal L factors | list lemmas; block form of the entries |
| C52 | `RepXspace_Pure`, `RepXspace_Twin` | loop invariants of the block assembly, then the entry formula |
| C53 | `RepXspace_PiqPi` | shape mismatch forced by the loop, for every ordinary space |
| C54 | `RepXspace` | induction on the operator sum |
| C55 | `RepXspace_Pi` | entry formula and the symmetries of C29, C50 |
| C56 | `ACM_show_rat_lst`, `ACM_show_amp_lst` with `str.format` | symbolic execution of the format language |
| C57 | rate and amplitude functions of globals.py | sqrt algebra, C50 for the coupling coefficients |
| C58 | `QxQxQred_*` functions | case analysis on the shapes, block equations |
| C59 | `RWC_alam36` | derivatives of the potentials, sqrt algebra |
| C60 | `Show_Rats`, `Show_Amps`, `Show_Eigs` default arguments | evaluation for every settings |
| C61 | `ACM_ScaleOrAdapt` with `Op_Tame` false | stage decomposition of the driver; the counts of bases and blocks differ |
| C62 | `Show_Eigs`, `min_head` | list induction |
| C63 | `ME_Radial`, `RepRadial_Prod` of one operator | case by case on the operator and the shift; truncated products of infinite matrices |
| C64 | `RepRadial_Prod` of a word | a band of half width `t` in every factor: rows and columns the truncation cannot reach; monotone sums where it never settles |
| C65 | `RWC_Ham`, `RepXspace`, `DigXspace`, `Eigenfiddle`, `ACM_ScaleOrAdapt` together; `eigh` as a parameter with its contract (Spectrum.v) | closed entries of operators that are sums of radial words (RadialSums.v); a counting argument on squared eigenvector components |
| C66 | `RWC_Ham` with `RWC_expt`, the whole driver | closed entries of the quartic Hamiltonian; the spectral sum of a diagonal entry and of a padded eigenvector (Ritz.v); a two-state counterexample |
| C67 | `DigXspace`, `Eigenfiddle`, `AmpXspeig`, `ACM_ScaleOrAdapt` together; `eigh` and `inv` as parameters with their contracts | the inverse of an orthogonal matrix is its transpose; labels of the blocks of the amplitude array; Parseval's identity |
| C68 | `parse_line`, `load_datafile`, `datafile_dict`, `parse_line_float`, `readdata_float` on texts; `float()`, `int()`, white space and the file system as parameters (DataFile.v) | a relation between a line and its words, induction on lines; the positional table of C11 against the labelled dictionary |
| C69 | wr2015.py as real functions (Paper.v) against `RWC_expt`, `beta_dav`, `lam_dav`, `RWC_dav`, `RWC_expt_link`, `RWC_alam`, `ACM_set_basis_type` | field identities; the minimum of C45 |
| C70 | `is_zeros`, `is_close`, `is_sorted`, `is_nd_*`, `Matrix_to_ndarray`, `ndarray_to_Matrix`; `math.isclose` and row-major arrays (Compare.v) | induction on lists; rows of a row-major list |
| C71 | sessions of calls and runs, `Example.prepare`, `Example.run`, the classes of sections 1 to 4 as data (Examples.v) | the three settings that no call writes are an invariant; C34 and C40; induction on the chain of predecessors |
| C72 | `DigXspace`, `AmpXspeig`, `ACM_ScaleOrAdapt` and sessions with the memo tables as state (MemoDriver.v) | the tables are coherent with the lambda function or empty: an invariant of the session; a concrete session where it breaks |
| C73 | `laplacian_op`, `comm_su11_op`, `comm_bdb_op` through `RepXspace` and `RepRadial_LC` | products of two elementary matrices truncated to the radial range, in closed form; the linear law of C54 |
| C74 | the procedures of globals.py with their output (Report.v); floats, functions and operators printed by parameters | without the output they are the procedures of Settings.v (refinement); decimal notation is injective and ends before the next letter; the fifteen stages of `ACM_set_defaults` one by one |
| C75 | radial_space.py with memory: arrays at addresses, views, memo tables from calls to references, writing in place, `cache_clear` (Sharing.v); of `RepXspace` only its calls of the remembering functions | frames: a function changes only arrays it has made; invariant: every remembered reference holds the value its call would compute, and no array of the caller is remembered; simulation with RadialOps.v |
| C76 | the elementary matrix element functions of RadialME.v against wave functions on (0, oo) (WaveSpec.v), with improper Riemann integrals and derivatives of Coquelicot; Gamma is Euler's integral, so the parameter of C24-C26 is instantiated | the integral exists (bound, monotone limits) and satisfies Gamma(s+1) = s Gamma(s) (integration by parts); Laguerre polynomials by their recurrence, orthogonal by the recurrence acting on both factors; beta, 1/beta, d/dbeta act on the wave functions by finite expansions, or their adjoints do; substitution b -> a b |
| C77 | ME_Radial and RepRadial_Prod (RadialME.v) against the same wave functions; products of operators act on functions one after another (`word_fop`, WaveSpec.v) | finite sums of b^e exp(-b^2/2) with exponents above s are closed under beta, 1/beta and d/dbeta (WaveClass.v); each elementary matrix is a finite expansion either of the operator on the right function or of its adjoint on the left one, and a factorised word is a product of such (WaveWords.v); the truncation results of C63/C64 |
| C78 | `RWC_Ham`, `RWC_expt`, `RWC_alam`, `lam_dav` (HamData.v) and the run (FullSpace.v) against the differential operator on functions of beta (`schroedinger`, HamWaves.v) and the mean over gamma | the matrix elements of C76 for each term; beta^4 as the product of two finite expansions; Schroedinger equation pointwise from the SU(1,1) action; lower bound: int w H w - E int w^2 is the integral of a square (integration by parts), beta^2 beta^2 truncated is the square of a symmetric matrix, blocks by SO(5) state |
| C79 | RepXspace (FullOps.v) for one-term operators, `quad_op`, `quadRigid_op`, the conversion factors and `ACM_Hamiltonian` (Operators.v) against the wave functions of C76 and an explicit unit tensor (`unit_q`, PropsTransition.v) | a word of radial symbols and one harmonic is one RepXspace_Twin (C35), whose entries are given by C52 and C51; the ladder matrices of C76 are exact; closed forms of C29; norms from the sum rule of C29 and integrals over [-1, 1] |
| C80 | the matrix routines of internal_operators.py and full_operators.py as programs that look up coefficients, remember matrices and clear tables (DataMemo.v), run with and without the memo tables; sessions in which the disk and the directory change | a remembered matrix is one that the coefficients already loaded determine (invariant `inv`), loaded tables only grow, so re-running gives the same matrix; the program given the coefficients is the routine of Operators.v and FullOps.v; induction over sessions |
| C81 | the drivers over the data-reading matrix routines (DataDriver.v), for any way of running these; sessions of settings calls, runs, requests, directory and file changes | simulations of a run in a process by one without tables and by the run of Display.v with the coefficients of the disk; no momentum key is in the tables unless a momentum operator was met since they were last emptied; a run overwrites the scale factors it reads before reading them |
| C82 | the scalar formulas in Flocq's binary64 (Float.v): the Davidson lambda function, the symmetrisation, displayed energies, the adapted scale factor, rates, elementary radial elements, `math.isclose` | rounding is monotone and exact on doubles; half-integer arithmetic below 2^53 is exact, so one rounding remains; error bounds for the square roots show that consecutive floors differ by at most one (FloatLambda.v); small C separately |
| C83 | the functions of internal_operators.py and full_operators.py with arrays in memory and memo tables of addresses (FullSharing.v); sessions of calls and changes to returned arrays | every function keeps the arrays there are, returns a new unremembered array or the remembered one, and as long as remembered arrays contain what would be computed its result is the value of FullOps.v (FullSharingFacts.v); induction on the session |
| C84 | Hamiltonians, harmonics, radial words and RepXspace of the existing model; `transposed`, `symmetric`, powers of beta in HermitianSpec.v | every elementary radial matrix has a dual (HermitianFacts.v), the factors of a power of beta in the two directions are dual (HermitianRadial.v), products of symmetric harmonics are transposed and graded by parity, and sums of such terms are symmetric (HermitianTerms.v); entrywise calculation for beta^3 (HermitianCubed.v) |
| C85 | ArgTypes.v: Python numbers and other objects as arguments, the validators with their type tests, functools.cache as a session of calls, clears and changes of setting, the memoised functions on such arguments | the table holds exactly the successful calls since the last clear (PropsArgTypes.v, section CacheFacts); equal arguments that both succeed denote the same integers |
| C86 | Nested.v: a term of an operator is local if its entry between two states does not depend on the basis; radial words of one symbol whose truncated matrix is exact; one harmonic, or several with the same seniorities | entries of a sum of local terms agree (sum_nested), Cauchy interlacing (Ritz.v) for the levels; explicit 2 x 2 matrices for the refutation (PropsNested.v) |
| C87 | two machines (eigh, inv, memory) for the driver of Display.v | the projector on an eigenspace is the same for two eigensystems of a symmetric matrix, hence multiplicities, sorted levels, strengths and non-degenerate amplitudes up to sign (Solver.v); the display procedures, one by one, depend on the array only through the rate function (PropsSolver.v); 2 x 2 runs for the refutations |
| C88 | str.format of Format.v, the two passes of Show_Mels | parsing of doubled braces and of fields by induction on the text; the two passes composed; lists of transitions by induction |
| C89 | ACM_Hamiltonian, RWC_Ham, RepXspace, DigXspace, Show_Eigs, ACM_ScaleOrAdapt | in_units relates the two operators term by term; RepXspace is linear (C54), so matrices are rescaled; eigenvalues of c M + E by the min-max uniqueness of C87; display stages compared line by line |
| C90 | RadialOps (factor powers), FullOps, ACM_Hamiltonian, RWC_Ham, HamData, ACM_ScaleOrAdapt | every factor list the parser makes for a word has total power of anorm minus the word's power; a simulation between the two evaluations (with related memo tables) shows each word's matrix scaled; coefficients cancel it; the driver reads the transition operator only for its matrices |
| C91 | ME_SO5red, SpHarm_Table, FullOps (all words), ACM_Hamiltonian, RWC_Ham, DigXspace, AmpXspeig, ACM_ScaleOrAdapt | parity of each factor's matrix in the seniorities, composed along the word by induction; RepXspace is linear (C54), so the mirrored matrix is P D P with P the diagonal of signs; P times the eigenvectors diagonalises it; uniqueness of levels, strengths and moments from C87 |
| C92 | ACM_Hamiltonian, RepXspace, RadProd words for 1, beta^2, beta^4, 1/beta^2, d2/dbeta2, Eigenfiddle, DigXspace, ACM_ScaleOrAdapt | the matrix is additive in the coefficients (C54); each radial matrix is a Gram matrix on the truncated space (factors of the RadialSums identities), so the difference of the two matrices has a form that is nowhere negative, block by block; k-th levels by the min-max argument of Ritz; concavity from Ky Fan's inequality, with the eigenvectors of the mixed matrix as trial states |
| C93 | ACM_Hamiltonian, RepXspace (all words), Eigenfiddle, DigXspace, ACM_ScaleOrAdapt | every entry is a fixed linear form in the fourteen coefficients (C54); K is the sum of the absolute entries of the fourteen term matrices; the min-max argument of C92 with a constant added to one of the matrices |
| C94 | ACM_Hamiltonian (radial terms), RepXspace, dimSO5r3, Eigenfiddle, DigXspace, ACM_ScaleOrAdapt | the matrix is one radial block per spherical state, the same for all states of a seniority; the diagonal of the projector on an eigenspace is a least upper bound over solutions in one block, so that its trace, the number of occurrences, is a sum over seniorities |
| C95 | ACM_Hamiltonian, RepXspace (all words), Eigenfiddle, DigXspace, ACM_ScaleOrAdapt | the sum of the eigenvalues is the trace and the sum of their squares the sum of the squared entries; every entry is a fixed linear form in the coefficients (C93) |
| C96 | RepSO5_Y_alg, RadialOperator.matrix, RadialOperator_b2, RepRadial_b2_sqrt (with the classes) | comprehensions that differ by a conversion which never fails (C29), and by a shift of the indices |
| C97 | KTOp/SOp `__eq__` and `__hash__`, the `@cache` of RepRadialshfs_Prod as a dictionary searched by hash and then by == | invariant over histories: stored values are the function's, keys are distinct |
| C98 | the runs of C67 and C94 | a component of an eigenvector in a seniority restricts to a radial solution with the same level (C94); the quadrupole matrix vanishes unless seniorities differ by one (C79); a non-zero sum has a non-zero term |

## Findings

Properties that the code violates are stated as the law it does obey plus a
`*_refuted` witness: C05 (an omitted `L_max`), C09 (names that collide), C14 (the
table cache ignores the data directory), C18 ("this shouldn't arise" does
arise), C22 (intermediate bases with a non-positive lambda), C27 (the parity of
[pi x q x pi]; tame does not imply scalar), C29 (`QxQxQred_m3`), C30 (the sign of
`RepSO5_sqLdim`), C31 (documented values of a lambda function), C33 (setters that change some settings before raising), C36 and C53
(sign of [pi x pi] and the missing matrix of pi q pi), C37 (for operators that are
not tame the block taken for every L but the last has one row and column too
many), C39 (skipped values of L), C41 (an IndexError for a reference rate that is
not checked), C43 (row designators with index 0 or below), C44 and C72 (memo tables
survive a change of lambda function), C45 (documented lambda; not always the
smallest), C49 (coupling with the scalar
ignores multiplicity labels), C56 (order of numbers in a listing), C58 and C59
(documented correspondences), C60 (defaults taken at import), C61, C63 (`ME_Radial` does not check the shifted lambda), C64 (with
the default overlap 0 the matrix of beta^4 has a wrong last diagonal entry; some
products are not exact for any overlap), C66 (as a consequence, with a beta^4 term
a larger nu_max can raise the lowest level, and RWC_expt is not the matrix entry
for nu_max = 0), C68 (CG_SO5r3 does not look at the labels in its data files), C69,
C70 (relative tolerances against zero), C73 (an operator documented to give a zero
matrix never does), C74 (`ACM_set_defaults` announces the transition operator under the
old designation of the rates; `ACM_set_rat_form` does not report the new one), C75
(after a `RepRadial_LC` or `RepXspace` that raised, `RepRadial_Prod` returns an array that
is still in a memo table, and changing it changes later results; the remembering
functions called directly always do), C76 (for 0 < lambda < 1 the matrix elements of
1/beta^2 are returned though the integrals diverge), C82 (the matrix of beta^2 can be
asymmetric in the last bit; the Davidson lambda function can differ by two from its value
in exact arithmetic).

## Trusted base

1. The kernel of Coq 8.16.1 and its `vm_compute` conversion (used in examples and
   a few closed computations).  No plugin, no axiom of our own, no `Admitted`,
   no switched-off check, no functor or module type.
2. The axioms of Coq's standard library listed under "Axioms per theorem".
   Coquelicot and Flocq add none.
3. The reading of Python into Gallina.  Each definition cites the lines it models;
   nothing is extracted or executed against the source.
4. The hypotheses visible in each statement about the routines that are not
   modelled (`np.linalg.eigh`, `np.linalg.inv`, the Gamma function behind
   `scipy.special.poch`, the contents of the data files, the printing of floats).
   An `Example` gives an instance for each.  For Gamma the two properties used are
   proved of Euler's integral (C76), which C77 and C78 use too.

## What is modelled

| source file | modelled in | left out |
|---|---|---|
| compat.py | Compat.v (validators, `is_even`, `is_odd`, `iquo`, `irem`), CG.v (`readdata_float` as the file's list of reals), DataFile.v (`parse_line_float`, `readdata_float` on the file's lines), Compare.v (comparison helpers, conversions between SymPy and NumPy matrices), Float.v (`is_zeros`, `is_close` in binary64), ArgTypes.v (`require_int` and the validators on arguments of any type) | `require_algebraic`; `list_to_ndarray` |
| spherical_space.py | Spherical.v (all functions), Operators.v (the tables of symbols) | |
| so5_so3_cg.py | CG.v (tables, cache, directory setting), SO5Files.v (file names), CGSO3.v (SO(3) coefficients) | prints |
| so5cg.py | SO5Files.v, Text.v (names, regular expressions, directory dictionaries), DataFile.v (`parse_line`, `load_datafile`, `datafile_dict`) | decoding of the file and its division into lines |
| radial_bases.py, radial_operators.py | FullLabels.v, RadialME.v | the classes are reduced to the functions they wrap |
| radial_space.py | RadialME.v (matrix elements), RadialOps.v (words, lambda shifts, splits, products), RadialElement.v (`ME_Radial`, `RepRadial_Prod`), Sharing.v (the same with arrays in memory and the memo tables), PropsOpKeys.v (`KTOp`, `SOp` equality and hash) | `Radial_Operators` dictionaries of names |
| internal_operators.py | Operators.v (operator sums, classification, encoders, `RepSO5_*`), FullSharing.v (products with arrays in memory) | SymPy's own simplification |
| full_operators.py | FullLabels.v, FullOps.v (all `RepXspace*`, `NumSO5r3_*`, `Mel_*`, memo tables of the momentum operators), QxQxQ.v, DataMemo.v (the same reading data files, with the memo tables), FullSharing.v (the same with arrays in memory) | |
| eigenvalues.py | Display.v (`Eigenfiddle`) | `Eigenvectors` (unused), the solver itself |
| full_space.py | FullSpace.v (`DigXspace`, `AmpXspeig`, blocks), Display.v (display and drivers), MemoDriver.v (the same drivers with the memo tables), DataDriver.v (the same with the memo tables and the data files) | |
| globals.py | Settings.v (settings, setters, listings, functions), Report.v (the same with what they print), Format.v (`str.format`) | the text of functions and operators, of which nothing is assumed |
| hamiltonian_data.py | HamData.v | `solveset` and `root_scalar` are replaced by what they are asked to solve |
| papers/wr2015.py | Paper.v | the SymPy equations built from the functions |
| examples/ | Examples.v | printing of progress, of elapsed time and of return values |
| gamma.py, debug/, performance/, tests/, acm1_4.py | | scripts, re-exports and notes |

## Simplifications, in one place

* Floats are real numbers, except in C82 (Float.v), where the scalar formulas listed
  there are evaluated in IEEE binary64 as Flocq defines it (one NaN, round to nearest
  even; the integer parameters of these formulas are converted exactly or raise
  OverflowError; the parameter C of the lambda function is a float).  NumPy division by zero (a warning and `inf`/`nan`) is
  Coq's `x / 0`, and theorems whose content depends on it carry a guard.
* SymPy `sqrt`, `Rational` and `simplify` are exact real arithmetic; that some
  entries are SymPy `Float` objects rather than Python floats is not observed.
  Symbols in coefficients do not cancel.
* `@cache` tables whose key holds every input (`RepRadial`, `RepSO5_Y_rem`, ...)
  are transparent and omitted; for the radial functions this is proved (C75, with
  the exceptions stated there).  Tables with a hidden input (the Clebsch-Gordan
  tables, `NumSO5r3_Rgenk` and its relatives, which depend on the lambda function)
  are explicit state.
* `int()` and `str()` have no digit limit.  Strings are lists of code points.
  `str.format` covers the fields, conversions and specifications that the code's
  format strings can contain; other specifications raise in the model as in Python
  or are outside the statement.
* Functions stored in settings have a `__name__`.
* Printing is a list of lines in Display.v; in Settings.v only where it can raise
  or is itself the subject (C56).
* `np.empty` memory that the code never fills is the parameter `junk`.
* `np.array([])` of no rows has shape (0,) in NumPy and is a 0-row matrix here.
* `RepSO5_sqLdiv` returns a SymPy matrix in the code, a real matrix here.
* `S.one` (a misspelling in a branch of the encoder) is taken to raise
  AttributeError.
* `beta_dav` for c1 < 0, c2 < 0 yields an imaginary SymPy number, on which the next
  comparison raises TypeError; the model raises it directly.
* `RWC_Ham` is modelled for B <> 0 (division by a SymPy zero otherwise).
* The comment at the constant `Convert_610` in the source says 3cos+1; the value is
  that of 3cos^2-1, and C28 uses the value.

## Axioms per theorem

What `Print Assumptions` reports, theorem by theorem (each `Props*.v` file prints it at
its end).  Abbreviations: `D` = `ClassicalDedekindReals.sig_forall_dec`, `N` =
`ClassicalDedekindReals.sig_not_dec`, `F` =
`FunctionalExtensionality.functional_extensionality_dep`, `C` =
`Classical_Prop.classic`; all four belong to Coq's standard library (the first three
are the ones its real numbers rest on).

* **no axioms (closed under the global context)** (103): `C01_multiplicity_rule`, `C01_multiplicity_support`, `C01_taus_exact`,
  `C02_all_L_count`, `C02_rng_count`, `C03_dimSO5_exact`, `C03_dimension_sum`,
  `C04_allL`, `C04_invalid_ranges_raise`, `C04_rngL`, `C04_rngV`, `C04_rngVallL`,
  `C04_rngVrngL`, `C04_rngVvarL`, `C05_omitted_L_max_exact`,
  `C05_omitted_L_max_refuted`, `C06_full_labels`, `C06_invalid_ranges_raise`,
  `C06_layout`, `C06_omitted_L_max`, `C06_radial_labels`, `C07_concat`, `C07_split`,
  `C08_components_parse_back`, `C08_database_lookup`, `C08_illegal_raises`,
  `C08_injective`, `C09_all_directories_kept_refuted`, `C09_base_dict_keeps_last`,
  `C09_datafile_names`, `C09_dir1_dict_keeps_last`, `C09_dir1_names`,
  `C09_dir2_dict_keeps_last`, `C09_dir2_names`, `C09_equal_numbers`, `C10_exchange`,
  `C10_illegal_raises`, `C10_labels`, `C11_get_CG_file`, `C11_show_CG_file`,
  `C16_other_symbol_raises`, `C16_parse_degree`, `C16_parse_faithful`,
  `C16_parse_total`, `C17_disabled_assertion`, `C17_extra_shift_in_front`,
  `C17_shifts_add_up`, `C18_S_operators_unshifted`, `C18_remaining_case`,
  `C19_no_mixed_pair`, `C19_splits_well_formed`, `C20_offsets`, `C27_AM_definite`,
  `C27_AM_empty`, `C27_AM_indefinite`, `C27_parity`, `C27_scalar_is_tame`, `C27_tame`,
  `C31_jig`, `C31_show`, `C31_test`, `C32_designators`, `C33_datum`, `C33_listln`,
  `C33_output`, `C37_full_blocks`, `C37_full_blocks_refuted`, `C37_full_lengths`,
  `C37_tame_blocks`, `C37_tame_total`, `C38_Lvals`, `C38_invalid_ranges_raise`,
  `C38_validate_Lvals`, `C39_blocks_are_label_intervals`, `C39_blocks_tile`,
  `C39_skipping_refuted`, `C39_unknown_block`, `C42_arrays`, `C42_progression`,
  `C48_division`, `C48_parity`, `C48_posint_validator`, `C48_range_validator`,
  `C51_number_of_harmonics`, `C51_table_of_harmonics`, `C68_blank_line`, `C68_dict`,
  `C68_every_line`, `C68_fields`, `C68_line`, `C68_readers_agree`, `C70_square`,
  `C70_vector_and_matrix`, `C85_integers`, `C85_validators`, `C86_lambdas`,
  `C97_equality`, `C97_found`, `C97_hash`, `C97_hash_refuted`, `C97_one_entry`,
  `C97_transparent`, `C97_tuples`

* **D** (6): `C27_parity_PiqPi_refuted`, `C33_eig_fit`, `C33_rat_fit`, `C39_AmpXspeig_complete`,
  `C70_round_trip`, `C70_round_trip_array`

* **D, F** (42): `C18_never_arises_refuted`, `C18_product_raises`, `C20_exceptions`,
  `C20_factorisation`, `C21_block_range`, `C21_no_shape_error`,
  `C21_nonpositive_lambda`, `C21_only_ValueError`, `C21_product_denotes_word`,
  `C22_endpoints_do_not_suffice_refuted`, `C22_large_lambda_succeeds`,
  `C22_success_exactly`, `C32_scales`, `C33_scales`, `C40_adapt_eigenvalue`,
  `C40_adapt_lowest`, `C40_only_scale_factors`, `C40_scale_keeps`, `C41_index_error`,
  `C41_no_index_error`, `C41_unavailable`, `C42_empty`, `C46_energy`,
  `C46_energy_errors`, `C47_not_square`, `C47_symmetrised`, `C57_rate`,
  `C61_never_succeeds`, `C61_value_error`, `C62_lowest`, `C62_no_lowest`,
  `C62_nothing`, `C62_shown`, `C69_energy`, `C70_close`, `C70_negative_tolerance`,
  `C70_relative_refuted`, `C70_sorted`, `C70_zeros`, `C79_modes`, `C84_diagonalised`,
  `C90_estimate`

* **D, N, F** (333): `C11_illegal_raises`, `C11_selection_rules`, `C11_total`, `C11_value`,
  `C12_exchange_symmetry`, `C13_cache_transparent`,
  `C14_directory_change_honoured_refuted`, `C14_value_from_first_load`,
  `C14_value_not_loaded`, `C15_not_half_integer_raises`, `C15_selection_rules`,
  `C15_total`, `C23_beta2_and_bDb`, `C23_casimir`, `C23_su11_relations`,
  `C24_beta_ladders_square`, `C24_derivative`, `C24_inverses`, `C25_inverse_square`,
  `C25_inverse_square_other_order`, `C25_lambda_one_raises`, `C25_second_derivative`,
  `C25_second_derivative_su11`, `C26_band`, `C26_composition`,
  `C26_identity_same_lambda`, `C26_one_step`, `C26_orthogonal`, `C26_transpose`,
  `C27_tame_is_scalar_refuted`, `C28_HamSH3`, `C28_HamSH6`, `C28_Hamiltonian`,
  `C28_RWC`, `C28_RigidBeta`, `C28_encoders_are_scalar`, `C28_zero_terms_omitted`,
  `C29_ME_negative_raises`, `C29_ME_total`, `C29_Q`, `C29_QxQ`, `C29_QxQxQ`,
  `C29_QxQxQ_m3`, `C29_QxQxQ_m3_refuted`, `C29_product_of_zonal_functions`,
  `C29_sum_rule`, `C29_transpose`, `C30_diagonals`, `C30_product`,
  `C30_sqLdim_sign_refuted`, `C31_constant_parity_refuted`, `C31_davidson`,
  `C31_davidson_documented_refuted`, `C31_parity`, `C31_test_bases`, `C31_values`,
  `C32_amp_scale_refuted`, `C32_types`, `C33_basis_type`, `C33_listln_atomic_refuted`,
  `C33_output_atomic_refuted`, `C33_rat_fit_atomic_refuted`, `C34_defaults`,
  `C34_functions`, `C34_history`, `C34_omitted`, `C35_full_space_operator`,
  `C35_segment`, `C35_split`, `C35_unknown_symbol`, `C36_documented_sign_refuted`,
  `C36_signs`, `C40_adapt_rate`, `C42_expansion`, `C42_quartet`, `C42_quintet_beyond`,
  `C42_rates_and_amplitudes`, `C42_sequence`, `C42_too_long`, `C43_outside`,
  `C43_row`, `C44_complete_calls`, `C44_disciplined`, `C44_stale`,
  `C44_stale_matrix_refuted`, `C45_alam_fun`, `C45_exceptions`, `C45_not_converged`,
  `C45_smallest_refuted`, `C49_scalar_coupling_is_delta_refuted`,
  `C49_scalar_coupling_multiplicity_free`, `C49_scalar_coupling_value`,
  `C50_complete`, `C50_lowering`, `C50_orthonormal`, `C50_phase`, `C51_designators`,
  `C51_hermitian`, `C51_hermitian_matrix`, `C51_matrix`, `C51_product_app`,
  `C51_product_defined`, `C51_product_nil`, `C51_product_single`,
  `C51_scalar_harmonic`, `C51_selection`, `C52_empty_word`, `C52_ranges`,
  `C52_twin_defined`, `C52_twin_entries`, `C53_common_ranges`, `C53_no_matrix`,
  `C53_single_seniority`, `C54_exception`, `C54_linear`, `C54_single_L`,
  `C55_antihermitian`, `C55_pi_defined`, `C55_pi_entries`, `C56_listing`,
  `C56_never_fails`, `C56_quartet`, `C56_quartet_documented_refuted`, `C56_rat_fit`,
  `C56_total`, `C57_amplitude`, `C57_detailed_balance`, `C57_mix`,
  `C57_rate_is_square`, `C57_scaled_square`, `C58_documented_refuted`,
  `C58_exceptional`, `C58_m1`, `C58_p1`, `C58_p_m1`, `C59_exceptions`,
  `C59_nonnegative`, `C60_defaults`, `C60_setting_used_refuted`,
  `C61_code_never_succeeds`, `C61_code_shapes`, `C63_closed_form_is_entry`,
  `C63_element_is_entry`, `C63_nonpositive_lambda_raises`, `C63_same_domain_refuted`,
  `C63_unknown_operator_raises`, `C64_beta4_without_overlap`,
  `C64_inverse_fourth_power_never_settles`, `C64_large_shift`,
  `C64_lowering_never_settles`, `C64_no_overlap_needed_refuted`, `C64_powers_of_beta`,
  `C64_raising_exact`, `C65_matched_needed`, `C65_matrix`, `C65_spectrum`,
  `C66_expectation`, `C66_ground_level`, `C66_larger_space`,
  `C66_larger_space_beta4_refuted`, `C67_amplitudes`, `C67_sum_rule`,
  `C67_unit_operator`, `C68_labels_heeded_refuted`, `C68_table`, `C69_bases`,
  `C69_beta0`, `C69_flat_refuted`, `C69_lambda0`, `C69_link`, `C71_examples`,
  `C71_fresh`, `C71_hamiltonian`, `C71_in_force`, `C71_observed`, `C71_parameters`,
  `C71_reproducible`, `C71_taken_back`, `C71_without_defaults_refuted`, `C72_fresh`,
  `C72_no_exception`, `C72_one_basis`, `C72_run`, `C72_session`, `C72_stale_refuted`,
  `C73_bdb`, `C73_bdb_zero_iff`, `C73_laplacian`, `C73_overlap`, `C73_su11`,
  `C73_su11_zero_refuted`, `C74_amp_form_tells`, `C74_basis_tells`, `C74_datum_tells`,
  `C74_defaults`, `C74_defaults_same`, `C74_defaults_same_refuted`,
  `C74_eig_fit_tells`, `C74_listing`, `C74_listln_tells`, `C74_output_tells`,
  `C74_rat_form_desg_refuted`, `C74_rat_form_tells`, `C74_refusal_prints_nothing`,
  `C74_same_effect`, `C74_scales`, `C74_silent`, `C74_transition_number`,
  `C74_transition_tells`, `C75_calls`, `C75_lc_value`, `C75_no_writes`, `C75_orderly`,
  `C75_prod_value`, `C75_raised_refuted`, `C75_remembering_refuted`,
  `C75_results_stay`, `C75_sessions`, `C75_unfinished_refuted`, `C79_defined`,
  `C79_factorises`, `C79_unit_length`, `C80_completed_file_refuted`,
  `C80_corrected_file_refuted`, `C80_incomplete_file`, `C80_only_new_files`,
  `C80_stays`, `C80_tables_unobservable`, `C81_files`, `C81_no_exception`,
  `C81_no_momentum`, `C81_one_basis`, `C81_retry`, `C81_session`, `C81_stale`,
  `C81_supplied`, `C83_careful`, `C83_careless_refuted`, `C83_modified`,
  `C83_remembered`, `C83_returns`, `C83_same_array`, `C83_untouched`, `C84_RWC`,
  `C84_beta3`, `C84_beta3_refuted`, `C84_cos3gamma`, `C84_cubed`, `C84_hamiltonian`,
  `C84_number_refuted`, `C84_parity`, `C84_quadrupole`, `C84_radial`, `C84_rigid`,
  `C85_harmonics`, `C85_momentum_history_refuted`, `C85_momentum_integers`,
  `C85_momentum_new_process`, `C85_momentum_others`, `C85_momentum_raises`,
  `C85_momentum_settings`, `C85_radial`, `C85_radial_functions`,
  `C85_radial_history_refuted`, `C85_radial_new_process`, `C86_hamiltonian`,
  `C86_levels`, `C86_rigid`, `C86_rigid_levels`, `C86_seniority_refuted`,
  `C87_amplitudes`, `C87_degenerate_refuted`, `C87_levels`, `C87_rates`, `C87_report`,
  `C87_sign_refuted`, `C87_strength`, `C88_accepted`, `C88_constant`, `C88_fields`,
  `C88_prints`, `C88_rejected`, `C88_swapped`, `C88_twice`, `C88_unusable`,
  `C88_value_alone`, `C89_Hamiltonian`, `C89_RWC`, `C89_levels`, `C89_listing`,
  `C89_matrices`, `C89_report`, `C89_transitions`, `C90_Davidson`, `C90_Hamiltonian`,
  `C90_RWC`, `C90_homogeneous`, `C90_link`, `C90_matrices`, `C90_optimum`, `C90_run`,
  `C91_Hamiltonian`, `C91_RWC`, `C91_levels`, `C91_listing`, `C91_matrices`,
  `C91_moments`, `C91_report`, `C91_transitions`, `C91_words`, `C92_Hamiltonian`,
  `C92_concave`, `C92_concave_sums`, `C92_floor`, `C92_matrices`, `C92_potential`,
  `C93_continuous`, `C93_rate`, `C94_counts`, `C94_multiplet`, `C94_multiplet_counts`,
  `C94_multiplet_lists`, `C94_seniority`, `C94_union`, `C95_centroid`, `C95_moments`,
  `C96_algebraic`, `C96_invalid_range`, `C96_radial_class`, `C96_square_root`,
  `C98_forbidden`, `C98_moment`, `C98_selection`

* **D, N, C, F** (56): `C45_alam_negative`, `C45_alam_nonnegative`, `C45_lambda_documented_refuted`,
  `C45_minimum`, `C45_root_negative`, `C45_root_nonnegative`, `C45_search`,
  `C45_special_cases`, `C46_constant_lambda`, `C46_variable_lambda`, `C59_negative`,
  `C69_optimum`, `C76_beta`, `C76_beta2_and_bDb`, `C76_derivative`,
  `C76_differentiable`, `C76_gamma`, `C76_identity`, `C76_inverse`,
  `C76_inverse_square_and_second_derivative`, `C76_orthonormal`,
  `C76_small_lambda_refuted`, `C76_su11`, `C76_unique`, `C77_element_is_integral`,
  `C77_large_shift`, `C77_matrix_of_one_operator`, `C77_powers_of_beta`, `C78_bound`,
  `C78_davidson`, `C78_eigenfunctions`, `C78_energy`, `C78_expectation`, `C78_least`,
  `C78_matrix`, `C79_cos3gamma`, `C79_ladder_harmonic`, `C79_normalisation`,
  `C79_quadrupole`, `C79_quadrupole_rigid`, `C82_adapted`, `C82_davidson`,
  `C82_davidson_exact_refuted`, `C82_davidson_parity`, `C82_davidson_refused`,
  `C82_davidson_steps`, `C82_davidson_test`, `C82_elements`, `C82_elements_accuracy`,
  `C82_is_close`, `C82_rates`, `C82_shown`, `C82_shown_accuracy`, `C82_symmetric`,
  `C82_symmetric_refuted`, `C82_symmetrised`
