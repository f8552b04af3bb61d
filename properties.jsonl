{"id": "C01", "title": "SO(5) to SO(3) multiplicity rule", "statement": "dimSO5r3(v,L) equals, for every pair of integers, the number of times angular momentum L occurs in the seniority-v irrep of SO(5): the number of p>=0 with tau=v-3p>=0, tau<=L<=2*tau and L<>2*tau-1. In particular it is never negative, never raises, is 0 outside 0<=L<=2v.", "quantifier": "every integer v and every integer L", "why_tests_cant": "v and L are unbounded; the closed form subtracts two floor quotients and can only be checked pointwise by tests", "anchors": ["src/acmpy/spherical_space.py:dimSO5r3"]}
{"id": "C02", "title": "Counting all SO(3) multiplets of a seniority", "statement": "For every v>=0 the closed form dimSO5r3_allL(v) equals the sum of dimSO5r3(v,L) over all L in 0..2v (and over any longer range), and dimSO5r3_rngVallL is the sum over the seniority range.", "quantifier": "every seniority v>=0 and every seniority range", "why_tests_cant": "identity between a closed form and a sum with unbounded number of terms", "anchors": ["src/acmpy/spherical_space.py:dimSO5r3_allL", "src/acmpy/spherical_space.py:dimSO5r3_rngVallL", "src/acmpy/spherical_space.py:dimSO5r3"]}
{"id": "C03", "title": "Dimension bookkeeping of the branching rule", "statement": "For every v>=0 the sum over L of dimSO5r3(v,L)*dimSO3(L) equals dimSO5(v): no state of the SO(5) irrep is lost or counted twice.", "quantifier": "every seniority v>=0", "why_tests_cant": "unbounded sum identity", "anchors": ["src/acmpy/spherical_space.py:dimSO5r3", "src/acmpy/spherical_space.py:dimSO3", "src/acmpy/spherical_space.py:dimSO5"]}
{"id": "C04", "title": "Spherical label lists enumerate exactly the states", "statement": "With L_max given, lbsSO5r3_rngVvarL (and the allL, rngVallL, rngL, rngV, rngVrngL variants) returns a duplicate-free list whose members are exactly the (v,alpha,L) in range with 1<=alpha<=dimSO5r3(v,L), ordered with L slowest, then v, then alpha, and whose length is the value of the corresponding dimension function. Invalid ranges raise ValueError.", "quantifier": "all integer ranges", "why_tests_cant": "ranges unbounded; length/dimension agreement must hold for all", "anchors": ["src/acmpy/spherical_space.py:lbsSO5r3_rngVvarL", "src/acmpy/spherical_space.py:lbsSO5r3_rngVrngL", "src/acmpy/spherical_space.py:lbsSO5r3_rngV", "src/acmpy/spherical_space.py:lbsSO5r3_rngL", "src/acmpy/spherical_space.py:lbsSO5r3_allL", "src/acmpy/spherical_space.py:lbsSO5r3_rngVallL", "src/acmpy/spherical_space.py:dimSO5r3_rngVvarL"]}
{"id": "C05", "title": "Omitting L_max in lbsSO5r3_rngVvarL", "statement": "The documentation says omitting L_max means L_max=L_min. In the code the omitted form drops the label with the largest alpha of every seniority that has any, so the returned list is exactly the one for L_max=L_min with those labels removed; it agrees with L_max=L_min and with dimSO5r3_rngVvarL only when there are no states of that L at all.", "quantifier": "every valid seniority range and L", "why_tests_cant": "needs the exact law for all ranges, a test only shows one disagreement", "anchors": ["src/acmpy/spherical_space.py:lbsSO5r3_rngVvarL", "src/acmpy/spherical_space.py:dimSO5r3_rngVvarL"]}
{"id": "C06", "title": "Full-space labels, dimension and layout", "statement": "For valid ranges lbsXspace returns a duplicate-free list of exactly the (nu,v,alpha,L) in range, its length is dimXspace, nu varies fastest, and the k-th label is (nu_min + k mod d, the (k div d)-th spherical label) with d=dimRadial: the layout RepXspace_Twin uses to place blocks. Omitting L_max is the same as L_max=L_min.", "quantifier": "all valid ranges and all indices k", "why_tests_cant": "unbounded ranges; index arithmetic must agree everywhere", "anchors": ["src/acmpy/full_operators.py:lbsXspace", "src/acmpy/full_operators.py:dimXspace", "src/acmpy/radial_bases.py:dimRadial", "src/acmpy/radial_bases.py:lbsRadial"]}
{"id": "C07", "title": "Full space is the ordered sum of its L-subspaces", "statement": "lbsXspace over L_min..L_max is the concatenation, for L increasing, of lbsXspace for each single L, and dimXspace adds up accordingly, so matrices for an L range are obtained by adjoining those of the individual L values.", "quantifier": "all valid ranges and all split points", "why_tests_cant": "unbounded", "anchors": ["src/acmpy/full_operators.py:lbsXspace", "src/acmpy/full_operators.py:dimXspace"]}
{"id": "C08", "title": "SO(5) CG file names are injective and parse back", "statement": "SO5CG_filename maps distinct legal quintets to distinct paths, and parse_datafile_name, parse_dir2_name and parse_dir1_name recover the numbers from the corresponding path components, for all non-negative integers.", "quantifier": "all non-negative integers of any number of digits", "why_tests_cant": "unbounded string/number round trip", "anchors": ["src/acmpy/so5_so3_cg.py:SO5CG_filename", "src/acmpy/so5cg.py:parse_datafile_name", "src/acmpy/so5cg.py:parse_dir2_name", "src/acmpy/so5cg.py:parse_dir1_name"]}
{"id": "C09", "title": "File name parsing is not injective on the accepted names", "statement": "The parsers accept exactly the names made of the fixed text and non-empty digit strings (any Unicode decimal digits), with at most one newline at the end, return None for every other name, and return the numeric values; two digit strings give the same number exactly when they are the same digits after dropping leading zeros, and dir2_dict/dir1_dict/base_dict keep, among entries with the same label, only the last one listed.", "quantifier": "all strings", "why_tests_cant": "quantifies over every string", "anchors": ["src/acmpy/so5cg.py:parse_datafile_name", "src/acmpy/so5cg.py:parse_dir1_name", "src/acmpy/so5cg.py:dir1_dict", "src/acmpy/so5cg.py:base_dict"]}
{"id": "C10", "title": "CG_labels enumerate the coupled labels", "statement": "CG_labels(v1,L2,v3) is duplicate-free and contains exactly the quadruples (a1,L1,a3,L3) with 1<=a1<=dimSO5r3(v1,L1), 1<=a3<=dimSO5r3(v3,L3) and |L1-L2|<=L3<=L1+L2, in lexicographic order of L1,a1,L3,a3.", "quantifier": "all non-negative v1, L2, v3", "why_tests_cant": "unbounded", "anchors": ["src/acmpy/so5_so3_cg.py:CG_labels"]}
{"id": "C11", "title": "SO(5) CG selection rules and totality", "statement": "For legal arguments CG_SO5r3 returns 0 whenever the seniorities violate the triangle or parity rule, the angular momenta violate the triangle rule or an alpha exceeds its multiplicity; otherwise, provided the data file supplies one number per CG label, it returns a value (never KeyError), including when v1>v3.", "quantifier": "all argument nonets and all data files", "why_tests_cant": "unbounded arguments, arbitrary file contents", "anchors": ["src/acmpy/so5_so3_cg.py:CG_SO5r3", "src/acmpy/so5_so3_cg.py:load_CG_table", "src/acmpy/so5_so3_cg.py:CG_labels", "src/acmpy/so5_so3_cg.py:get_CG_file"]}
{"id": "C12", "title": "Exchange symmetry of CG_SO5r3", "statement": "Whenever v1<>v3, CG_SO5r3(v1,a1,L1,v2,a2,L2,v3,a3,L3) equals (-1)^(L3+L2-L1)*sqrt(dimSO5(v3)*dimSO3(L1)/(dimSO5(v1)*dimSO3(L3))) times the coefficient with states 1 and 3 exchanged, in both directions.", "quantifier": "all argument nonets with v1<>v3", "why_tests_cant": "unbounded; both directions of the swap must be mutually consistent", "anchors": ["src/acmpy/so5_so3_cg.py:CG_SO5r3"]}
{"id": "C13", "title": "CG table cache is transparent for a fixed data directory", "statement": "For any history of CG_SO5r3 / load_CG_table calls with an unchanged data directory and files, every result equals what a fresh interpreter would return.", "quantifier": "all call histories", "why_tests_cant": "quantifies over histories", "anchors": ["src/acmpy/so5_so3_cg.py:CG_coeffs", "src/acmpy/so5_so3_cg.py:load_CG_table", "src/acmpy/so5_so3_cg.py:CG_SO5r3"]}
{"id": "C14", "title": "CG table cache ignores the data directory", "statement": "The cache key does not contain the base directory: after set_base_directory, a coefficient whose table was already loaded keeps the value from the old directory, for every history; only tables not loaded before come from the new one.", "quantifier": "all histories and pairs of directories", "why_tests_cant": "history property", "anchors": ["src/acmpy/so5_so3_cg.py:SO5CGConfig", "src/acmpy/so5_so3_cg.py:load_CG_table"]}
{"id": "C15", "title": "SO(3) CG coefficients never evaluate an illegal factorial", "statement": "For all half-integer arguments CG_SO3/Wigner_3j return 0 outside the selection rules and otherwise take factorials only of non-negative integers and divide only by non-zero numbers; non-half-integer arguments raise ValueError.", "quantifier": "all argument sextuples", "why_tests_cant": "unbounded arguments", "anchors": ["src/acmpy/so5_so3_cg.py:CG_SO3", "src/acmpy/so5_so3_cg.py:Wigner_3j"]}
{"id": "C16", "title": "Radial operator words are parsed faithfully", "statement": "For every sequence of the ten basic radial operators, the product of beta^K d^T/dbeta^T and S factors returned by Parse_RadialOp_List is the same operator as the original word, in every algebra in which beta and 1/beta are inverse and b2,bm2,D2b,bDb mean beta^2, beta^-2, D^2, beta*D; any other symbol raises ValueError.", "quantifier": "all words of any length and all interpretations", "why_tests_cant": "unbounded words, all algebras", "anchors": ["src/acmpy/radial_space.py:Parse_RadialOp_List"]}
{"id": "C17", "title": "Lambda shifts always add up", "statement": "For every parsed operator list and every lambda_var, the shifts returned by Lambda_RadialOp_List add up to exactly lambda_var, and there is one per operator or exactly one more (at the front). This settles the disabled assertion in the code: the partial sum it compares with is off by one exactly when parities differ.", "quantifier": "all operator lists and all integers lambda_var", "why_tests_cant": "unbounded lists", "anchors": ["src/acmpy/radial_space.py:Lambda_RadialOp_List"]}
{"id": "C18", "title": "No lambda shift may land on an S operator", "statement": "RepRadial_Prod relies on S operators (S+,S-,S0) receiving shift 0. This holds whenever some beta^K D^T factor is of odd degree, or lambda_var is even, or |lambda_var| is not below the total degree; in the remaining case (all degrees even, lambda_var odd and smaller) the shift of the last served operator is taken off the NEXT operator in the list, and if that is an S operator the call raises ValueError \"this shouldn't arise\".", "quantifier": "all operator lists and all lambda_var", "why_tests_cant": "unbounded lists; the failing inputs are rare", "anchors": ["src/acmpy/radial_space.py:Lambda_RadialOp_List", "src/acmpy/radial_space.py:SOp.representation", "src/acmpy/radial_space.py:RepRadial_Prod_common"]}
{"id": "C19", "title": "Lambda_Splits is well formed", "statement": "For all integers K,R and T>=0, Lambda_Splits returns |K|+T or |K|+T+1 integers adding up to R; the extra leading one is even unless K=T=0 and R odd; all others are in {-1,0,1}; 1/beta and d/dbeta never receive a paired zero shift together.", "quantifier": "all integers K, T>=0, R", "why_tests_cant": "unbounded", "anchors": ["src/acmpy/radial_space.py:Lambda_Splits"]}
{"id": "C20", "title": "beta^K d^T factorisation is the right operator between the right bases", "statement": "Whenever it does not raise, RepRadial_bS_DS(K,T,a,lambda,R) multiplies elementary matrices whose operator product is beta^K d^T, each acting from the basis where the previous one ended, starting at lambda and ending at lambda+R; none of its assertions nor the \"This shouldn't arise!\" branch can be reached.", "quantifier": "all K, T, R, lambda", "why_tests_cant": "unbounded loop, unreachable branches", "anchors": ["src/acmpy/radial_space.py:RepRadial_bS_DS", "src/acmpy/radial_space.py:Lambda_Splits"]}
{"id": "C21", "title": "Radial product lambda bookkeeping", "statement": "RepRadial_Prod(ops,a,lambda,lambda_var,...) raises ValueError when lambda<=0 or lambda+lambda_var<=0; otherwise the factors it multiplies denote the operator word ops, chain through bases from lambda to lambda+lambda_var, and the returned block has the requested index range for every nu_lap.", "quantifier": "all words, lambda, lambda_var, index ranges", "why_tests_cant": "unbounded", "anchors": ["src/acmpy/radial_space.py:RepRadial_Prod_common", "src/acmpy/radial_space.py:RepRadialshfs_Prod"]}
{"id": "C22", "title": "Positive end points do not imply positive intermediate bases", "statement": "lambda>0 and lambda+lambda_var>0 do not suffice for RepRadial_Prod to succeed: an intermediate basis may have lambda<=0 and then ValueError is raised; it always succeeds when lambda exceeds the total degree of the word plus |lambda_var|+1, unless the shift lands on an S operator (C18).", "quantifier": "all words and lambda", "why_tests_cant": "failing inputs depend on word structure", "anchors": ["src/acmpy/radial_space.py:RepRadial_Prod_common", "src/acmpy/radial_space.py:RepRadial_bS_DS"]}
{"id": "C23", "title": "SU(1,1) commutation relations of the radial matrix elements", "statement": "The matrix elements of S0,S+,S- (on the full infinite basis) satisfy [S0,S+]=S+, [S0,S-]=-S-, [S-,S+]=2*S0, the Casimir is lambda/2*(lambda/2-1), S+ and S- are transposes, and b2=2*S0+S+ + S- ; bDb = S- - S+ - 1/2.", "quantifier": "all lambda>0 and all indices", "why_tests_cant": "identities over an unbounded index set and real parameter", "anchors": ["src/acmpy/radial_space.py:ME_Radial_S0", "src/acmpy/radial_space.py:ME_Radial_Sp", "src/acmpy/radial_space.py:ME_Radial_Sm", "src/acmpy/radial_operators.py:ME_Radial_b2", "src/acmpy/radial_space.py:ME_Radial_bDb"]}
{"id": "C24", "title": "beta ladder matrix elements factor beta^2", "statement": "beta: lambda->lambda+1 followed by beta: lambda+1->lambda equals the beta^2 matrix, the two are transposes, the 1/beta matrices are their inverses (finite sums), and d/dbeta satisfies beta*Db = bDb across the shift.", "quantifier": "all lambda>0 and all indices", "why_tests_cant": "unbounded index set, real parameter", "anchors": ["src/acmpy/radial_space.py:ME_Radial_b_pl", "src/acmpy/radial_space.py:ME_Radial_b_ml", "src/acmpy/radial_space.py:ME_Radial_bm_pl", "src/acmpy/radial_space.py:ME_Radial_bm_ml", "src/acmpy/radial_space.py:ME_Radial_Db_pl", "src/acmpy/radial_space.py:ME_Radial_Db_ml"]}
{"id": "C25", "title": "Inverse-square and second-derivative matrix elements", "statement": "The 1/beta^2 matrix is symmetric, is the product of the two 1/beta ladder matrices, and D2b is the product form built from it, for lambda>1; lambda=1 raises ValueError.", "quantifier": "all lambda and all indices", "why_tests_cant": "unbounded", "anchors": ["src/acmpy/radial_space.py:ME_Radial_bm2", "src/acmpy/radial_space.py:ME_Radial_pt", "src/acmpy/radial_space.py:ME_Radial_D2b"]}
{"id": "C26", "title": "Identity matrix elements between different lambda", "statement": "ME_Radial_id_pl with r=0 is the Kronecker delta; with r=1 it is the product of 1/beta and beta ladders; ME_Radial_id_ml(lambda,mu,nu,r) is the transpose ME_Radial_id_pl(lambda-2r,nu,mu,r).", "quantifier": "all lambda, indices and r", "why_tests_cant": "unbounded", "anchors": ["src/acmpy/radial_space.py:ME_Radial_id_pl", "src/acmpy/radial_space.py:ME_Radial_id_ml", "src/acmpy/radial_space.py:MF_Radial_id_pl"]}
{"id": "C27", "title": "Operator classification", "statement": "Op_AM is the common angular momentum of the terms of a non-empty operator sum, and if they differ it is negative and minus the largest; Op_Tame is true exactly when no term contains pi, [pi x pi]_2 or [pi x pi]_4, so every scalar sum is tame, but a tame sum need not be scalar (the quadrupole operator is tame with angular momentum 2); without [pi x q x pi], Op_Parity is the common parity of the degrees of the terms, and -1 if they differ; [pi x q x pi], of degree 3, is classified as even.", "quantifier": "all operator sums", "why_tests_cant": "unbounded lists", "anchors": ["src/acmpy/internal_operators.py:Op_AM", "src/acmpy/internal_operators.py:Op_Parity", "src/acmpy/internal_operators.py:Op_Tame"]}
{"id": "C28", "title": "Hamiltonian encoders denote the documented polynomial", "statement": "ACM_Hamiltonian, ACM_HamRigidBeta (both flags, through ACM_HamSH3 and ACM_HamSH6) and RWC_Ham encode exactly the documented sum of terms: interpreting the symbols in any real algebra in which beta^2, beta^-2 and Y610 have their meaning, the sum of coefficient times product equals the documented polynomial, for all coefficients, also those that depend on the state; terms with coefficient zero are omitted; an unknown flag is refused; the result is tame with angular momentum 0.", "quantifier": "all coefficient tuples and all interpretations", "why_tests_cant": "unbounded reals and algebras", "anchors": ["src/acmpy/internal_operators.py:ACM_Hamiltonian", "src/acmpy/internal_operators.py:ACM_HamRigidBeta", "src/acmpy/hamiltonian_data.py:RWC_Ham"]}
{"id": "C29", "title": "SO(5)-reduced matrix element formulas agree", "statement": "ME_SO5red returns a non-negative number for all seniorities, non-zero exactly when they form a triangle of even perimeter, and its squares are the coefficients in the product of two zonal spherical harmonics of the 4-sphere (Gegenbauer polynomials of order 3/2), hence obey the sum rule with SO(5) dimensions and the interchange symmetry. The closed forms Qred_p1, Qred_m1, QxQred_p2, QxQred_0, QxQred_m2, QxQxQred_p3, _p1, _m1 agree with it after the documented normalisation for every v; QxQxQred_m3, which has 2v in place of v+2, is wrong for every v >= 3.", "quantifier": "all v", "why_tests_cant": "unbounded", "anchors": ["src/acmpy/internal_operators.py:ME_SO5red", "src/acmpy/internal_operators.py:Qred_p1", "src/acmpy/internal_operators.py:QxQxQred_m3"]}
{"id": "C30", "title": "Diagonal L operators", "statement": "RepSO5_sqLdiv gives (-1)^L/sqrt(2L+1) on every label; RepSO5_sqLdim is documented to give (-1)^L*sqrt(2L+1) but gives -sqrt(2L+1) for every L, so the product of the two is the identity exactly on odd L.", "quantifier": "all ranges and labels", "why_tests_cant": "unbounded", "anchors": ["src/acmpy/internal_operators.py:RepSO5_sqLdim", "src/acmpy/internal_operators.py:RepSO5_sqLdiv"]}
{"id": "C31", "title": "lambda functions preserve parity", "statement": "The basis types 0, 1, 2 give the displacements 0, v and the parity of v; type 3 gives the integer of the parity of v nearest to sqrt((v+1)^2 + (a beta_0)^4) - sqrt(9/4 + (a beta_0)^4), where the documentation has v+3/2 in place of v+1 (refuted). All but type 0, and lambda_jig_fun, give a displacement of the parity of v. ACM_test_lambda_fun returns True exactly when consecutive displacements differ by +1 or -1 on the whole range, and ACM_show_lambda_fun returns exactly the displacements of the range.", "quantifier": "all v and ranges", "why_tests_cant": "unbounded", "anchors": ["src/acmpy/globals.py:lambda_acm_fun", "src/acmpy/globals.py:lambda_jig_fun", "src/acmpy/globals.py:lambda_sho_fun", "src/acmpy/globals.py:lambda_davi_fun", "src/acmpy/globals.py:ACM_test_lambda_fun"]}
{"id": "C32", "title": "Settings invariants hold after any history", "statement": "After any sequence of ACM_set_* calls with arbitrary integer/real arguments, successful or failing, every stored setting satisfies its documented type constraint (counts and angular momenta non-negative, indices positive, designators of length at most 5, TRopAM non-negative).", "quantifier": "all call histories including failing calls", "why_tests_cant": "histories", "anchors": ["src/acmpy/globals.py:ACM_set_output", "src/acmpy/globals.py:ACM_set_listln", "src/acmpy/globals.py:ACM_set_eig_fit", "src/acmpy/globals.py:ACM_set_rat_fit", "src/acmpy/globals.py:ACM_set_rat_lst", "src/acmpy/globals.py:ACM_set_transition"]}
{"id": "C33", "title": "Which setters are atomic on failure", "statement": "A failing ACM_set_eig_fit leaves all settings unchanged, and so does ACM_set_rat_fit when it refuses an argument; if ACM_set_rat_fit fails later, while it formats its message, all its five values are already stored. A failing ACM_set_output or ACM_set_listln keeps the arguments that come before the refused one. A failing ACM_set_scales keeps the new energy and rate scales; ACM_set_datum and ACM_set_basis_type change nothing when they fail.", "quantifier": "all states and arguments", "why_tests_cant": "crash points", "anchors": ["src/acmpy/globals.py:ACM_set_eig_fit", "src/acmpy/globals.py:ACM_set_rat_fit", "src/acmpy/globals.py:ACM_set_output", "src/acmpy/globals.py:ACM_set_listln"]}
{"id": "C34", "title": "ACM_set_defaults resets", "statement": "From any reachable state, ACM_set_defaults restores all settings it covers to the import-time values, whatever the history.", "quantifier": "all histories", "why_tests_cant": "histories", "anchors": ["src/acmpy/globals.py:ACM_set_defaults"]}
{"id": "C35", "title": "RepXspace_Prod multiplies the operators in order", "statement": "For every operator word the matrix is the ordered product of maximal radial/spherical segments and full-space operators, ending with a (superfluous) empty segment which contributes the identity; unknown symbols raise ValueError.", "quantifier": "all words", "why_tests_cant": "unbounded words", "anchors": ["src/acmpy/full_operators.py:RepXspace_Prod", "src/acmpy/full_operators.py:RepXspace_Twin"]}
{"id": "C36", "title": "Sign of [pi x pi]_(v=2,L=2)", "statement": "RepXspace_PiPi(4) assembles block (i,j) with coefficient CG2*radial; RepXspace_PiPi(2) is documented as minus the assembled matrix, but the code negates the accumulated matrix after every block, so block number k of m in visiting order carries sign (-1)^(m-k+1).", "quantifier": "all ranges", "why_tests_cant": "sign depends on number of blocks", "anchors": ["src/acmpy/full_operators.py:RepXspace_PiPi"]}
{"id": "C37", "title": "L-blocks used by DigXspace", "statement": "For operators without angular-momentum-carrying factors, DigXspace diagonalises for each L of non-zero dimension the matrix of exactly that L; for the other operators the slice taken for every L but the last has one row and column too many (the first state of the next L), so the list of eigenvalues for that L has length dimXspace+1.", "quantifier": "all ranges and operators", "why_tests_cant": "unbounded ranges", "anchors": ["src/acmpy/full_space.py:DigXspace", "src/acmpy/internal_operators.py:Op_Tame"]}
{"id": "C38", "title": "DigXspace reports the L values of non-zero dimension", "statement": "Lvals returned by DigXspace is strictly increasing and is exactly the set of L in range with states; eigenvalue and basis lists have the same length; validate_Lvals accepts it whenever it is non-empty.", "quantifier": "all ranges", "why_tests_cant": "unbounded", "anchors": ["src/acmpy/full_space.py:DigXspace", "src/acmpy/full_space.py:validate_Lvals"]}
{"id": "C39", "title": "Angular momentum blocks tile the matrix", "statement": "LBlockFullSpace.blocks gives consecutive, disjoint intervals of lengths dimXspace(L) covering 0..dim; when Lvals contains every L of non-zero dimension between its first and last, block (L) is exactly the index interval of labels with that L, so AmpXspeig writes every entry of its result; if Lvals skips such an L the blocks are misaligned.", "quantifier": "all ranges and Lvals lists", "why_tests_cant": "unbounded", "anchors": ["src/acmpy/full_space.py:LBlockFullSpace", "src/acmpy/full_space.py:LBlockNDFloatArray", "src/acmpy/full_space.py:AmpXspeig"]}
{"id": "C40", "title": "Scaling state after ACM_Scale and ACM_Adapt", "statement": "ACM_Scale never changes the scale factors. After a successful ACM_Adapt with eigenvalue output, the reference state is displayed as exactly the fit value. After a failing ACM_Adapt because the reference eigenvalue is the lowest, the eigenvalue scale factor has been overwritten with 0.", "quantifier": "all histories and Hamiltonians", "why_tests_cant": "depends on state and history", "anchors": ["src/acmpy/full_space.py:ACM_ScaleOrAdapt", "src/acmpy/full_space.py:ACM_Scale", "src/acmpy/full_space.py:ACM_Adapt"]}
{"id": "C41", "title": "Reference-state checks prevent index errors", "statement": "If the reference-state checks of ACM_ScaleOrAdapt pass, the subsequent index operations are in range; the check for transition rates is skipped when the rate list is empty, and with a non-empty amplitude list an out-of-range reference index then raises IndexError instead of the documented error.", "quantifier": "all settings and ranges", "why_tests_cant": "state dependent", "anchors": ["src/acmpy/full_space.py:ACM_ScaleOrAdapt"]}
{"id": "C42", "title": "Designators in Show_Mels", "statement": "A quartet prints at most one value, read from the block of (L2,L1) at (n2,n1), only if in range; a quintet prints exactly the quartets of the arithmetic progression that are in range, for positive, negative and zero step; but with positive step and max(L1,L2) beyond the largest L it raises ValueError rather than being silently ignored.", "quantifier": "all designators and spaces", "why_tests_cant": "unbounded integers", "anchors": ["src/acmpy/full_space.py:Show_Mels", "src/acmpy/full_space.py:Show_Mels_Row", "src/acmpy/compat.py:iquo"]}
{"id": "C43", "title": "Row designators with non-positive index", "statement": "A triple designator [L1,L2,n2] with n2 in -(rows-1)..0 is not ignored but prints row n2 counted from the end; below that it raises IndexError.", "quantifier": "all integers n2", "why_tests_cant": "unbounded", "anchors": ["src/acmpy/full_space.py:Show_Mels_Row", "src/acmpy/full_space.py:Show_Mels"]}
{"id": "C44", "title": "Memo tables and exceptions", "statement": "If every RepXspace call completes, each result depends only on its arguments and the lambda function in force at the call; after a RepXspace call that raised, or a direct call of a memoised helper, a later call may return a matrix computed with an earlier lambda function.", "quantifier": "all histories with exceptions at any point", "why_tests_cant": "histories and crash points", "anchors": ["src/acmpy/full_operators.py:RepXspace", "src/acmpy/full_operators.py:RepXspace_Pi", "src/acmpy/globals.py:ACM_set_basis_type"]}
{"id": "C45", "title": "Optimal basis parameters", "statement": "For B>0 and c2>0 (or c1>0, c2=0) the stationarity function solved by RWC_alam / RWC_alam_clam has exactly one positive root, the doubling search for c1<0 terminates with a sign-changing bracket, a^2 is that root and it minimises the energy. The lambda returned is 1+sqrt((v+3/2)^2+(a*beta0)^4) for c1<0; for c1>=0 it is always 2.5, which differs from the documented value for every v>=1. Exceptions are raised exactly for the stated inputs, and the comment that the smallest positive zero is the minimum fails for c1>0>c2.", "quantifier": "all real B, c1, c2 in the stated ranges, all seniorities v, all solvers that are correct on these functions", "why_tests_cant": "The parameters range over the reals and the seniority over all integers; a sample of parameters cannot exclude a second root or a non-terminating search.", "anchors": ["src/acmpy/hamiltonian_data.py:RWC_alam", "src/acmpy/hamiltonian_data.py:RWC_alam_clam", "src/acmpy/hamiltonian_data.py:RWC2", "src/acmpy/hamiltonian_data.py:lam_dav"]}
{"id": "C46", "title": "Stationarity polynomial is the derivative of the energy", "statement": "RWC1/RWC2 vanish exactly where the derivative with respect to a^2 of the documented energy expression vanishes.", "quantifier": "all real parameters", "why_tests_cant": "real analysis", "anchors": ["src/acmpy/hamiltonian_data.py:RWC1", "src/acmpy/hamiltonian_data.py:RWC2"]}
{"id": "C47", "title": "Symmetrisation before diagonalisation", "statement": "Eigenfiddle passes to the eigen-solver a matrix that is symmetric for every square input, equal to the input iff the input is symmetric; non-square input raises ValueError.", "quantifier": "all matrices", "why_tests_cant": "unbounded sizes", "anchors": ["src/acmpy/eigenvalues.py:Eigenfiddle"]}
{"id": "C48", "title": "Argument validators", "statement": "require_nonnegint_range succeeds exactly when 0<=min<=max; iquo and irem satisfy m = n*iquo(m,n)+irem(m,n), 0<=irem<n exactly when m>=0 and n>0 and raise ValueError otherwise.", "quantifier": "all integers", "why_tests_cant": "unbounded", "anchors": ["src/acmpy/compat.py:require_nonnegint_range", "src/acmpy/compat.py:iquo", "src/acmpy/compat.py:irem"]}
{"id": "C49", "title": "Scalar coupling coefficients", "statement": "Coupling any SO(5) state with the scalar state v2=0, a2=1, L2=0 through CG_SO5r3 yields 1.0 for every admissible triple with v1=v3 and L1=L3, without reading any file. This is the Kronecker delta the physics requires exactly when the SO(3) irrep occurs once in the SO(5) irrep; when it occurs more than once the coefficient is 1.0 also for different multiplicity labels, so the claim 'the value is delta(a1,a3)' is refuted (first case v=6, L=6, labels 1 and 2).", "quantifier": "all legal (v,a1,L) and (v,a3,L), all cache states and all file contents", "why_tests_cant": "The set of labels is infinite and the deviation only appears at irreps with multiplicity at least two.", "anchors": ["src/acmpy/so5_so3_cg.py:load_CG_table", "src/acmpy/so5_so3_cg.py:CG_SO5r3"]}
{"id": "C50", "title": "SO(3) coefficients couple angular momenta", "statement": "The numbers CG_SO3(j1,m1,j2,m2,j3,m3) form an orthonormal and complete transformation between the product states and the coupled states, they satisfy the lowering-operator recursion J- = J1- + J2-, and CG_SO3(j1,j1,j2,j3-j1,j3,j3) is positive; these facts determine the Clebsch-Gordan coefficients in the Condon-Shortley convention uniquely.", "quantifier": "all integer and half-integer j1, j2, all j3 allowed by the triangle rule and all projections", "why_tests_cant": "unbounded angular momenta; the identities sum over arbitrarily many terms", "anchors": ["src/acmpy/so5_so3_cg.py:CG_SO3", "src/acmpy/so5_so3_cg.py:Wigner_3j"]}
{"id": "C51", "title": "Matrices of spherical harmonics", "statement": "RepSO5_Y is the square matrix, over the labels of the range, of the reduced matrix elements of the harmonic: each entry obeys the SO(5) and SO(3) selection rules and, between different seniorities, sqrt(2Lf+1) M(f,i) = (-1)^(Lf+L-Li) sqrt(2Li+1) M(i,f), whatever the data files contain; the scalar harmonic gives sqrt 3 between labels of equal v and L and 0 otherwise. RepSO5r3_Prod is the ordered matrix product of its designators, the identity for none of them, and is defined exactly if each factor is; NumSO5r3_Prod counts the harmonics.", "quantifier": "all label ranges, harmonics, data file contents and histories of the coefficient cache, all lists of designators", "why_tests_cant": "unbounded ranges and lists, arbitrary data files", "anchors": ["src/acmpy/internal_operators.py:ME_SO5r3", "src/acmpy/internal_operators.py:RepSO5_Y_rem", "src/acmpy/internal_operators.py:RepSO5r3_Prod_wrk", "src/acmpy/internal_operators.py:NumSO5r3_Prod"]}
{"id": "C52", "title": "Matrices of radial times spherical words on the full space", "statement": "RepXspace_Twin(rad_ops, sph_ops, ...) returns a square matrix of size (number of spherical labels) x (number of radial levels), spherical label slowest; the entry between (spherical label j, radial y) and (label i, radial x) is the spherical matrix element of sph_ops, divided by 4 pi per spherical harmonic, times the matrix element of the radial word between the bases lambda_base + lambda_fun(v_j) and lambda_base + lambda_fun(v_i), and 0 (radial word not evaluated) where the spherical element is 0. It is defined whenever those elements are. Two empty words give exactly the identity matrix if lambda is positive for every seniority present, and no matrix otherwise. Ranges that are empty or negative raise ValueError.", "quantifier": "all radial and spherical words, all truncations, lambda functions, scales and coefficient data", "why_tests_cant": "unbounded truncations, words and parameter values; layout must agree for every block", "anchors": ["src/acmpy/full_operators.py:RepXspace_Twin", "src/acmpy/full_operators.py:RepXspace_Pi", "src/acmpy/full_operators.py:RepXspace_PiPi", "src/acmpy/full_operators.py:RepXspace_PiqPi"]}
{"id": "C53", "title": "The scalar product of pi, q and pi has no matrix on ordinary spaces", "statement": "RepXspace_PiqPi returns no matrix whenever the label range contains two labels of equal angular momentum and seniorities v and v+1; in particular for every range containing seniorities v, v+1 and angular momentum 2v, v >= 1. With a single seniority it returns the zero matrix.", "quantifier": "all truncations, lambda functions, scales and coefficient data", "why_tests_cant": "a claim about every truncation; the suite exercises none that reaches the failing branch", "anchors": ["src/acmpy/full_operators.py:RepXspace_PiqPi"]}
{"id": "C54", "title": "RepXspace is linear in its operator", "statement": "RepXspace of a sum of terms returns a matrix exactly if each operator word of the sum has one (otherwise the exception of the first word without one); the matrix is square of the size of the label list and its entry from state j to state i is the sum over the terms of the coefficient, evaluated at the labels of state j, times the entry of the matrix of the word. The empty sum gives the zero matrix.", "quantifier": "all operator sums, constant or label-dependent coefficients, truncations, lambda functions and scales", "why_tests_cant": "unbounded sums and words, arbitrary coefficient functions", "anchors": ["src/acmpy/full_operators.py:RepXspace", "src/acmpy/full_operators.py:RepXspace_Term"]}
{"id": "C55", "title": "The momentum matrix is antihermitian", "statement": "RepXspace_Pi gives, between labels whose seniorities differ by 1 and angular momenta by at most 2, the coupling coefficient times the reduced matrix element times the radial matrix of d/dbeta plus the documented multiple of 1/beta, and 0 elsewhere. If the lambdas of neighbouring seniorities differ by 1 and are positive, the matrix satisfies sqrt(2Lf+1) M(f,i) = -(-1)^(Lf-Li) sqrt(2Li+1) M(i,f), whatever the coefficient files contain.", "quantifier": "all truncations, lambda functions with steps of 1, scales, coefficient files and cache states", "why_tests_cant": "unbounded truncations, real parameters, arbitrary data files", "anchors": ["src/acmpy/full_operators.py:RepXspace_Pi"]}
{"id": "C56", "title": "The listings of designators print each designator completely", "statement": "ACM_show_lst (hence the show, add and set commands for rate and amplitude designators) never fails, prints one line per designator in list order and returns their number. Every line gives the numbers of its designator in the documented order, except that for quartets, and quintets with step 0, the second and third numbers (final angular momentum and initial index) are exchanged.", "quantifier": "all designator lists with integer entries of any length", "why_tests_cant": "unbounded lists of arbitrary integers; the exchanged numbers agree in common examples", "anchors": ["src/acmpy/globals.py:ACM_show_lst", "src/acmpy/globals.py:ACM_show_rat_lst", "src/acmpy/globals.py:ACM_add_rat_lst"]}
{"id": "C57", "title": "Rate and amplitude functions agree with each other and obey detailed balance", "statement": "The unit and reduced-matrix-element rate functions return the square of the corresponding amplitude function, and remain so after division by the scale factors set by ACM_set_scales. The default rate is the squared matrix element times (2Lf+1)/(2Li+1); if the matrix elements of the two directions are related by hermiticity up to sign, the rates satisfy (2Li+1) rate(Li,Lf) = (2Lf+1) rate(Lf,Li). The default amplitude is the matrix element times a factor that is positive inside the triangle rule and zero outside. The mixed amplitude is the default one for Li = Lf, and the reduced one otherwise.", "quantifier": "all real matrix elements, all angular momenta, all positive scale factors", "why_tests_cant": "identities of real functions over infinite domains", "anchors": ["src/acmpy/globals.py:quad_rat_fun", "src/acmpy/globals.py:quad_amp_fun", "src/acmpy/globals.py:mel_rat_fun", "src/acmpy/globals.py:gen_amp_mul"]}
{"id": "C58", "title": "The separate functions for [QxQxQ] and the general one", "statement": "QpxQxQred_p1(v), QmxQxQred_p1(v) and QmxQxQred_m1(v) are minus QixQxQred at the documented arguments, with the same exceptions. QpxQxQred_m1(v) is minus QixQxQred(v, v-1, v-2) times sqrt(5(4v-3)/(4v-7)). The documented correspondence, without sign and factor, is false.", "quantifier": "all seniorities v, any table of coupling coefficients", "why_tests_cant": "unbounded seniorities; the coefficient data are external", "anchors": ["src/acmpy/full_operators.py:QpxQxQred_p1", "src/acmpy/full_operators.py:QmxQxQred_p1", "src/acmpy/full_operators.py:QpxQxQred_m1", "src/acmpy/full_operators.py:QmxQxQred_m1", "src/acmpy/full_operators.py:QixQxQred"]}
{"id": "C59", "title": "RWC_alam36 matches curvature but not the documented lambda", "statement": "For c1<0 (B,c2>0) RWC_alam36 returns an a for which the Davidson potential with its minimum at beta0 has the same second derivative there as the Hamiltonian's potential; but the lambda it returns equals RWC_dav's value for that a exactly when c1=-2. For c1>=0 it returns lambda=2.5 and a^4=B*c1/4, which is the width of the harmonic part of the potential exactly when c1=0 or B=1/4. It raises ZeroDivisionError for c1<0, c2=0 and ValueError for c1>0, B<0.", "quantifier": "all real B, c1, c2 in the stated ranges", "why_tests_cant": "The agreement of curvatures is an identity over a continuum of parameters, and the disagreement of lambda holds on all of it except a measure-zero set.", "anchors": ["src/acmpy/hamiltonian_data.py: RWC_alam36, RWC_dav, lam_dav, beta_dav"]}
{"id": "C60", "title": "Defaults of the display procedures", "statement": "Show_Rats and Show_Amps called without a list of transitions print nothing, and Show_Eigs called without a number shows 4 eigenvalues per angular momentum, whatever has been set since import: the default is not the current setting. In particular a transition list set by ACM_set_rat_lst has no effect on Show_Rats called without a list.", "quantifier": "all histories of setting calls, all matrices, all eigenvalue lists and ranges", "why_tests_cant": "A test that runs before any setting is changed cannot see that the default is frozen; the claim is about every history.", "anchors": ["src/acmpy/full_space.py:Show_Rats", "src/acmpy/full_space.py:Show_Amps", "src/acmpy/full_space.py:Show_Eigs", "src/acmpy/globals.py:ACM_set_rat_lst"]}
{"id": "C61", "title": "Transition rates are never produced for a Hamiltonian that must be diagonalised in one piece", "statement": "When the Hamiltonian contains the momentum operators that are only available on the whole space (so that all angular momenta are diagonalised together), and the range of angular momenta holds at least two that have states, ACM_Scale and ACM_Adapt never return normally if any transition rate or amplitude is to be displayed: the transformation of the transition operator rejects the stored bases. For ACM_Scale, with all numerical routines succeeding, the outcome is exactly a ValueError, after the eigenvalues have been printed and with the settings unchanged.", "quantifier": "every Hamiltonian containing such an operator, every space, range of angular momenta with two or more occupied values, every settings with a non-empty list of rates or amplitudes, every behaviour of the numerical routines that respects shapes", "why_tests_cant": "The failure must be shown for every untame Hamiltonian, basis size and angular momentum range; a test sees a single configuration and the diagonalisation step succeeds, so only the combination of later calls fails.", "anchors": ["src/acmpy/full_space.py:ACM_ScaleOrAdapt", "src/acmpy/full_space.py:DigXspace", "src/acmpy/full_space.py:AmpXspeig", "src/acmpy/internal_operators.py:Op_Tame"]}
{"id": "C62", "title": "The eigenvalue listing shows the right values relative to the right lowest one", "statement": "The lowest eigenvalue used by the listing is the least over the first entries of all non-empty lists (hence over all eigenvalues when each list is ascending), and is reported as an error when there are no eigenvalues at all. Show_Eigs prints a header and then exactly one line for each angular momentum of the requested range, in order, holding the first requested number of eigenvalues less the lowest, divided by the scale factor; it prints nothing when there is nothing to show and raises ValueError for a range that is not valid.", "quantifier": "every list of eigenvalue lists and angular momenta, every requested number and range, every settings", "why_tests_cant": "Holds for all eigenvalue arrays, including empty lists for some angular momenta, and for all combinations of optional range arguments, whose defaults interact.", "anchors": ["src/acmpy/full_space.py:Show_Eigs", "src/acmpy/full_space.py:min_head"]}
{"id": "C63", "title": "A single radial matrix element is the entry of the radial matrix", "statement": "ME_Radial(op, anorm, lambda, lambda_var, mu_f, mu_i) returns the entry (mu_f, mu_i) of the matrix of that one operator. For the operators with a closed form the matrix may be computed with any range of nu and any overlap; for the others (whose value comes from a truncated product) the matrix must be computed with an overlap of at least (|lambda_var|+3)//2 and at least nu_min. It raises ValueError for a non-positive lambda and for an unknown operator. The two functions do not have the same domain: for a lambda whose shifted value is not positive ME_Radial still returns a number in cases where the matrix function raises ValueError.", "quantifier": "all radial operators, all positive lambda and shifts of the right parity keeping lambda positive outside the stated singular cases, all non-zero anorm, all nu, all ranges and overlaps, every gamma function satisfying the functional equation, every matrix square root routine returning what it promises", "why_tests_cant": "Two different algorithms must agree at every one of infinitely many entries and for every real lambda.", "anchors": ["src/acmpy/radial_space.py:ME_Radial", "src/acmpy/radial_space.py:RepRadial_Prod"]}
{"id": "C64", "title": "How much overlap makes the matrix of a product of radial operators exact", "statement": "The matrix of a product computed on a truncated basis with a given overlap is a block of one fixed infinite matrix, the same for every range and every larger overlap, when the overlap is at least (degree+|shift|)/2 for words in beta and beta^2, at least (|shift|+degree)/2 for powers of beta times derivatives with a shift not below the degree, and at least 0 for the raising form of beta^-2 d2/dbeta2. With the default overlap 0, the matrix of beta^4 is exact except for its last diagonal entry, which is too small by (lambda+nu_max)(nu_max+1)/anorm^4. For beta^-4 without shift, and for beta^-2 d2/dbeta2 with shift -2, no overlap suffices: the lowest entry strictly increases with every further overlap.", "quantifier": "all words of the stated forms, all positive lambda and shifts of the right parity, all ranges of nu, all overlaps, all non-zero anorm", "why_tests_cant": "The claim compares the result for every overlap and every truncation; a finite test can only compare a few truncations and cannot show that none suffices.", "anchors": ["src/acmpy/radial_space.py:RepRadial_Prod", "src/acmpy/radial_space.py:RepRadial_bS_DS", "src/acmpy/globals.py:glb_nu_lap"]}
{"id": "C65", "title": "A harmonic vibrator in its own basis gets the exact oscillator spectrum", "statement": "For RWC_Ham(B, c1, 0, 0, 0) with B, c1 > 0, the basis of type 1 (lambda = 5/2 + v) and an anorm with anorm^4 = B^2 c1, the matrix of the Hamiltonian on any truncated basis is diagonal, with entry sqrt(c1) (2 nu + v + 5/2) at the state (nu, v, alpha, L); consequently every successful ACM_Scale or ACM_Adapt returns, for each angular momentum, exactly these energies of the states of its space, each as often as it occurs and in increasing order, without any truncation error. With any other anorm the matrix of a space with at least two radial states is not diagonal.", "quantifier": "all B, c1 > 0, all anorm, all ranges of nu, v and L, all settings, every eigenvalue routine that returns an orthogonal eigen-decomposition in increasing order, every gamma function satisfying the functional equation", "why_tests_cant": "Exactness for every truncation, every seniority and all real parameters; tests compare a few rounded numbers.", "anchors": ["src/acmpy/hamiltonian_data.py:RWC_Ham", "src/acmpy/full_operators.py:RepXspace", "src/acmpy/full_space.py:ACM_ScaleOrAdapt", "src/acmpy/globals.py:ACM_set_basis_type"]}
{"id": "C66", "title": "RWC_expt, the computed ground level and the size of the basis", "statement": "For RWC_Ham(B, c1, c2, 0, 0) with nu_min = 0, the diagonal entry of the Hamiltonian matrix at the lowest radial state of seniority 0 equals RWC_expt(B, c1, c2, 0, anorm, lambda0) whenever nu_max >= 1, and is smaller by B c2 lambda0/(2 anorm^4) when nu_max = 0. Consequently, whenever nu_max >= 1 or B c2 >= 0, every successful run reports a lowest L = 0 level that is at most RWC_expt, the value that RWC_alam minimises. Without the quartic term (c2 = 0) enlarging any of the ranges of nu and v never raises any level of any angular momentum (the k-th level of the larger space is at most the k-th of the smaller); with it a larger nu_max can raise the lowest level.", "quantifier": "all B <> 0, c1, c2, anorm, lambda functions giving positive lambda, all ranges, all settings and all pairs of nested spaces; every eigenvalue routine that returns an orthogonal eigen-decomposition in increasing order", "why_tests_cant": "A variational inequality between all pairs of truncations and for all real parameters; a test only compares a few rounded numbers.", "anchors": ["src/acmpy/hamiltonian_data.py:RWC_expt", "src/acmpy/hamiltonian_data.py:RWC_Ham", "src/acmpy/full_operators.py:RepXspace", "src/acmpy/full_space.py:ACM_ScaleOrAdapt", "src/acmpy/radial_space.py:RepRadial_Prod"]}
{"id": "C67", "title": "Every reported amplitude is the bracket of the transition operator between normalised eigenvectors", "statement": "Whenever ACM_Scale or ACM_Adapt is run with a Hamiltonian that does not couple different angular momenta and returns a transition amplitude array, there is for each angular momentum L of the run an orthonormal set of eigenvectors of the symmetric part of the Hamiltonian's matrix on the states of that L, belonging to the reported eigenvalues in order, such that the array's element for the n1-th state of L1 and the n2-th state of L2 is the sum over basis states a, b of x_a T_ab y_b, with x the n2-th eigenvector of L2, y the n1-th eigenvector of L1 and T the matrix of the transition operator in force. Consequently the total squared strength between two angular momenta depends on the transition operator and the basis only, not on the Hamiltonian; and if the transition operator's matrix is the unit matrix the array is the unit matrix (the reported states are orthonormal).", "quantifier": "all Hamiltonians passing the tameness test, all transition operators, bases, ranges, settings and fit targets; every eigenvalue routine that returns an orthogonal eigen-decomposition in increasing order and every inversion routine that returns a left inverse; all junk contents of freshly allocated arrays", "why_tests_cant": "An identity for all operators and all sizes that links four routines; tests compare a few rounded rates.", "anchors": ["src/acmpy/full_space.py:ACM_ScaleOrAdapt", "src/acmpy/full_space.py:AmpXspeig", "src/acmpy/full_space.py:DigXspace", "src/acmpy/eigenvalues.py:Eigenfiddle", "src/acmpy/full_operators.py:RepXspace"]}
{"id": "C68", "title": "The two readers of coefficient files agree, and only one of them heeds the labels", "statement": "The fields of a line are its white-space separated words, whatever the amount of white space between and around them, and every line is either blank or made up of words. parse_line accepts exactly ten words and returns the first as a float and the other nine as the labels (v1,a1,L1),(v2,a2,L2),(v3,a3,L3); other word counts raise ValueError. On every file that so5cg.load_datafile accepts, readdata_float returns the same coefficients in the same order; datafile_dict gives each label the coefficient of its last line. If the labels in the file come in the order of CG_labels, CG_SO5r3 returns for every admissible coefficient with v1 <= v3 the number that the file labels so. It does not look at the labels: exchanging two lines leaves the dictionary unchanged and changes the returned coefficient. A blank line anywhere makes both readers fail.", "quantifier": "all lines, files, white space, number parsers, data directories and admissible coefficients", "why_tests_cant": "All layouts of all files; a test reads a few well-formed ones.", "anchors": ["src/acmpy/so5cg.py:parse_line", "src/acmpy/so5cg.py:load_datafile", "src/acmpy/so5cg.py:datafile_dict", "src/acmpy/compat.py:parse_line_float", "src/acmpy/compat.py:readdata_float", "src/acmpy/so5_so3_cg.py:load_CG_table", "src/acmpy/so5_so3_cg.py:CG_SO5r3"]}
{"id": "C69", "title": "The code agrees with the paper's formulas, and RWC_alam minimises the paper's energy", "statement": "RWC_expt(B,c1,c2,kappa,a,lambda0) equals formula (B16) of [WR2015] plus kappa/3 for B and a nonzero and lambda0 other than 1. beta_dav is (B15) wherever c1 >= 0 or c2 > 0, lam_dav for v = 0 is (B11), and so RWC_dav and RWC_expt_link are (B11) with (B15) put in, and (B16) at that lambda0. Basis types 1, 2 and 0 give lambda0 plus the shift of formulas (61), (62) and (63). Whenever RWC_alam returns (a, lambda0) for v = 0, these are linked by (B11) and (B15), and (B16) is strictly larger at every other a^2 so linked. For c1 < 0 and c2 = 0, where the paper's (B15) is undefined, beta_dav and RWC_dav raise ZeroDivisionError.", "quantifier": "all real parameters in the stated ranges, all seniorities, all root finders that return roots and solvers that return all of them", "why_tests_cant": "Identities and a minimum over a continuum of parameters.", "anchors": ["src/acmpy/papers/wr2015.py:E_B16", "src/acmpy/papers/wr2015.py:lambda0_B11", "src/acmpy/papers/wr2015.py:beta0_B15", "src/acmpy/papers/wr2015.py:lambdav_61", "src/acmpy/papers/wr2015.py:lambdav_62", "src/acmpy/papers/wr2015.py:lambdav_63", "src/acmpy/hamiltonian_data.py:RWC_expt", "src/acmpy/hamiltonian_data.py:RWC_alam", "src/acmpy/globals.py:ACM_set_basis_type"]}
{"id": "C70", "title": "The comparison helpers mean absolute closeness, and matrices survive conversion", "statement": "For every tolerance >= 0, is_zeros tells whether all numbers are within the tolerance of 0, and is_close whether two lists have the same length and corresponding numbers differ by at most the tolerance: the relative tolerance of math.isclose never plays a part, so is_close can reject numbers that math.isclose accepts. A negative tolerance raises ValueError, unless the lists are empty or differ in length. is_sorted tells whether every earlier element is at most every later one. is_nd_square tells whether an array is of floats and of shape (n, n). Matrix_to_ndarray keeps element (i, j), and converting a matrix to an array and back, or an array to a matrix and back, gives the original.", "quantifier": "all lists of real numbers, tolerances, matrices and arrays of every size", "why_tests_cant": "All lists, sizes and tolerances, and the tests themselves rely on these helpers.", "anchors": ["src/acmpy/compat.py:is_zeros", "src/acmpy/compat.py:is_close", "src/acmpy/compat.py:is_sorted", "src/acmpy/compat.py:is_nd_square", "src/acmpy/compat.py:Matrix_to_ndarray", "src/acmpy/compat.py:ndarray_to_Matrix"]}
{"id": "C71", "title": "After ACM_set_defaults a session goes on as after a fresh import, so the examples are reproducible", "statement": "In a session of calls of the setting procedures, of ACM_Scale, ACM_Adapt and ACM_ScaleOrAdapt, and of the display procedures, in any order and whether they return or raise, everything that is returned, raised and printed after a call of ACM_set_defaults, and the settings at the end, are the same as if the session had started there. (A matrix of the momentum that a raising run left in the memo tables is an exception, see C72.) Without that call it need not be so. An example runs its exec in the settings that result from its predecessors' set and unset calls and its own set, in order, without the predecessors' exec; if its first ancestor begins with ACM_set_defaults its results, output and final settings do not depend on the session before it. Every example of sections 2, 3 and 4 is of this kind, none of their set and unset calls raises, and the Hamiltonian they use is RWC_Ham.", "quantifier": "all sessions of any length, all arguments, all examples and chains of predecessors, all numerical back ends that are functions of their arguments", "why_tests_cant": "All histories of calls; a test starts from one.", "anchors": ["src/acmpy/globals.py:ACM_set_defaults", "src/acmpy/full_space.py:ACM_ScaleOrAdapt", "src/acmpy/examples/example.py:Example", "src/acmpy/examples/section_1.py:Example_1_2", "src/acmpy/examples/section_2.py:make_RWC_ham", "src/acmpy/examples/section_3.py:Example_3_3_a", "src/acmpy/examples/section_4.py:Example_4_5_d"]}
{"id": "C72", "title": "Sessions do not observe the memo tables of the momentum matrices, unless the basis changes after a run that raised", "statement": "A run (ACM_Scale, ACM_Adapt, ACM_ScaleOrAdapt) made when the memo tables hold what would be computed now returns or raises, prints and sets exactly what it would with empty tables; it leaves the lambda function and that property of the tables unchanged, and when it returns with at least one level, or started with empty tables, it leaves them empty. So in a session in which all runs return, or in which no call selects a lambda function (ACM_set_lambda_fun, ACM_set_basis_type, ACM_set_defaults), or more generally in which none does so between a run that raises and the next run that returns a level, everything seen is what a process without the tables shows; and after a session whose runs all returned ACM_set_defaults starts afresh. Without the condition this fails: after a run that raised under basis type 1, ACM_set_defaults and a run with the Hamiltonian pi pi give the eigenvalues -1, -1 where a fresh process gives -5/7, -5/7.", "quantifier": "all sessions of any length, all arguments, operators and spaces, all radial and Clebsch-Gordan back ends, all solvers", "why_tests_cant": "All histories of returning and raising runs and of changes of basis.", "anchors": ["src/acmpy/full_operators.py:RepXspace", "src/acmpy/full_operators.py:RepXspace_Pi", "src/acmpy/full_space.py:DigXspace", "src/acmpy/full_space.py:AmpXspeig", "src/acmpy/full_space.py:ACM_ScaleOrAdapt", "src/acmpy/globals.py:ACM_set_defaults"]}
{"id": "C73", "title": "The operators provided as the Laplacian and as checks of the commutation relations", "statement": "comm_su11_op and comm_bdb_op are documented to give zero matrices. In every space whose lambda values are positive, the matrix RepXspace returns for comm_su11_op is diagonal, with (lambda+nu-1) nu at the states of smallest radial number nu = nu_min minus (lambda+nu)(nu+1) at those of largest radial number nu = nu_max, and zero elsewhere; so it is never a zero matrix: every non-empty space has a negative entry. The matrix for comm_bdb_op is nu_min at the diagonal entries with nu = nu_min and zero elsewhere; so it is a zero matrix exactly when nu_min = 0. The same sums computed by RepRadial_LC with an overlap of at least one radial state are zero matrices. In the oscillator basis the matrix for laplacian_op is diagonal in the SO(5) labels and tridiagonal in nu: -anorm^2 (5/2+v+2 nu) on the diagonal and anorm^2 sqrt((5/2+v+nu)(nu+1)) between nu and nu+1.", "quantifier": "all radial, seniority and angular momentum ranges, all positive lambda functions and bases, all nonzero length scales, all overlaps", "why_tests_cant": "The identities hold, or fail at the edge of the truncated space, for every range and real parameter; a test compares finitely many matrices.", "anchors": ["src/acmpy/internal_operators.py:laplacian_op", "src/acmpy/internal_operators.py:comm_su11_op", "src/acmpy/internal_operators.py:comm_bdb_op", "src/acmpy/full_operators.py:RepXspace", "src/acmpy/radial_space.py:RepRadial_LC"]}
{"id": "C74", "title": "What the settings procedures report", "statement": "The procedures of globals.py have the same effect whatever they print: for every reachable settings, the exception and the settings left do not depend on show or on the output. With show <= 0 a procedure prints nothing, except that designators of more than five numbers given to the list procedures are always complained about, one line each. A setter that refuses an argument prints nothing. With show > 0 the report determines what was set: two calls of ACM_set_output, ACM_set_listln, ACM_set_datum, ACM_set_eig_fit (up to printing of the float), ACM_set_basis_type, ACM_set_transition (angular momentum and whether it is determinate), ACM_set_rat_form (format) or ACM_set_amp_form (format and designation) that print the same have set the same; but the report of ACM_set_rat_form does not tell the designation. ACM_show_rat_lst and ACM_show_amp_lst print a heading and one indented line for each entry, or one line if the list is empty. ACM_show_scales with a zero scale prints the lines of the scales before it and raises ZeroDivisionError. ACM_set_defaults(1) prints the same 23 lines after every history but one: the transition operator is announced under the designation of rates in force before the call, so two calls print the same if and only if those designations were the same.", "quantifier": "all histories of calls of the settings procedures, all arguments, all values of show, all ways of printing floats, functions and operators", "why_tests_cant": "The report is a function of arbitrary integers, texts and histories; that it determines the setting is a statement about all pairs of calls.", "anchors": ["src/acmpy/globals.py:ACM_set_output", "src/acmpy/globals.py:ACM_set_listln", "src/acmpy/globals.py:ACM_set_datum", "src/acmpy/globals.py:ACM_set_eig_fit", "src/acmpy/globals.py:ACM_set_transition", "src/acmpy/globals.py:ACM_set_rat_form", "src/acmpy/globals.py:ACM_set_amp_form", "src/acmpy/globals.py:ACM_show_scales", "src/acmpy/globals.py:ACM_show_lst", "src/acmpy/globals.py:ACM_set_defaults"]}
{"id": "C75", "title": "Radial matrices are not corrupted by sharing", "statement": "The radial functions return NumPy arrays, keep arrays in memo tables and hand one array to several callers. In every session of calls of RepRadial_Prod, RepRadial_LC, RepXspace (finished or not) and of the remembering functions themselves, no call changes an array that existed before it, every matrix returned keeps its entries, and every call is answered (matrix or exception) as if it were the first call of a fresh process; this stays true when the caller changes, at any time, arrays that belong to the caller. What RepRadial_LC returns belongs to the caller; what RepRadial_Prod returns belongs to the caller unless a call of RepXspace or RepRadial_LC was left by an exception, or a remembering function was called directly, since the last RepXspace that finished. In a session without these, all arrays returned are distinct and may be changed. Otherwise not: after a RepRadial_LC or RepXspace that raised, RepRadial_Prod returns an array that is still remembered, and a change made to it by the caller is used by a later RepRadial_LC. The first call computes the matrices of the pure model (C22, C54), and raises in the same cases.", "quantifier": "all finite sessions of calls and changes of returned arrays, all operator words and linear combinations, all radial ranges, overlaps, widths and lambda parameters, all points at which a call raises", "why_tests_cant": "Whether two references denote one array depends on the whole history of calls, exceptions and cleared tables.", "anchors": ["src/acmpy/radial_space.py:RepRadial", "src/acmpy/radial_space.py:RepRadial_bS_DS", "src/acmpy/radial_space.py:RepRadialshfs_Prod", "src/acmpy/radial_space.py:RepRadial_Prod", "src/acmpy/radial_space.py:RepRadial_Prod_rem", "src/acmpy/radial_space.py:RepRadial_LC", "src/acmpy/radial_space.py:RepRadial_LC_rem", "src/acmpy/full_operators.py:RepXspace"]}
{"id": "C76", "title": "Radial matrix elements are the integrals they stand for", "statement": "The comments of radial_space.py say that the functions ME_Radial_* return the matrix elements F(Op) of the paper, that is the integrals over beta from 0 to infinity of R_f Op R_i, where R_nu for width a and parameter lambda is (-1)^nu sqrt(2 nu!/Gamma(lambda+nu)) sqrt(a) (a beta)^(lambda-1/2) exp(-(a beta)^2/2) L_nu^(lambda-1)((a beta)^2) and Gamma is Euler's integral. For every a > 0 and lambda > 0 these integrals exist and have the returned values times the power of a the code multiplies by: for beta and 1/beta and d/dbeta (raising or lowering lambda by one), beta^2, beta d/dbeta, the three SU(1,1) operators, the identity between lambdas that differ by any even number, and, for lambda > 1, 1/beta^2 and d2/dbeta2. The basis functions are orthonormal and twice differentiable. For 0 < lambda < 1 the function for 1/beta^2 returns negative numbers for the integral of a non-negative function, instead of raising.", "quantifier": "all widths a > 0, all real lambda > 0 (or > 1), all pairs of labels, all even differences of lambda", "why_tests_cant": "the labels and the two real parameters range over infinite sets; quadrature at sample points cannot tell a formula that is right everywhere from one that is right at the samples, nor that the improper integrals converge", "anchors": ["src/acmpy/radial_space.py: ME_Radial_S0, ME_Radial_Sp, ME_Radial_Sm, ME_Radial_bm2, ME_Radial_D2b, ME_Radial_bDb, ME_Radial_b_pl, ME_Radial_bm_pl, ME_Radial_Db_pl, ME_Radial_b_ml, ME_Radial_bm_ml, ME_Radial_Db_ml, ME_Radial_id_pl, ME_Radial_id_ml, MF_Radial_id_pl", "src/acmpy/radial_operators.py: ME_Radial_b2", "src/acmpy/radial_bases.py"]}
{"id": "C77", "title": "Matrix elements of operator products and shifted bases are the integrals they stand for", "statement": "ME_Radial(op, a, lambda, var, f, i), for any of the ten radial operators or the identity, any shift var of the right parity with lambda and lambda+var positive, and any two labels, returns the integral over beta of R_f^(lambda+var) Op R_i^(lambda), with the basis functions of C76 (the SU(1,1) operators, which themselves depend on lambda, are taken at the smaller of the two lambdas). The exception is 1/beta^2 and d2/dbeta2 with var = 0 and lambda <= 1. The entries of RepRadial_Prod for a product of beta and beta^2 with any shift, or for a product of powers of beta (or of 1/beta) and derivatives with a shift at least as large as its degree, are the integrals of the whole product, once the number of extra levels carried in the intermediate matrices reaches (degree + |shift|)/2; in particular no truncation error is left in them.", "quantifier": "all operators and products of any length in these classes, all widths a > 0, all lambda, all integer shifts of the right parity, all labels and label ranges, all numbers of extra levels from the bound on", "why_tests_cant": "products, shifts, labels and the real parameters range over infinite sets, and whether intermediate truncation changes an entry depends on all of them together", "anchors": ["src/acmpy/radial_space.py: ME_Radial, RepRadial, RepRadial_Prod, RepRadial_bS_DS, RepRadialshfs_Prod, Parse_RadialOp_List, Lambda_RadialOp_List"]}
{"id": "C78", "title": "The energies are those of the Schroedinger equation of the model", "statement": "For the Hamiltonian RWC_Ham(B, c1, c2, 0, 0), i.e. -1/(2B) Laplacian + B/2 (c1 beta^2 + c2 beta^4) in five dimensions: (a) the matrix the library builds has, between basis states of the same SO(5) state, exactly the integral of R_f H R_i over beta, and zero otherwise, except that the diagonal entry of the highest radial state is too small by B c2/2 (lambda_v + nu_max)(nu_max + 1)/a^4 (the intermediate state nu_max + 1 is missing from beta^2 beta^2); (b) RWC_expt(B, c1, c2, kappa, a, lambda) is the mean of H + kappa cos^2(3 gamma) in the lowest basis function of seniority 0; (c) the width and lambda that RWC_alam returns for seniority 0 give the least such mean among all widths with their lambda; (d) with the width matched to c1, the basis functions for lam_dav(a, beta0, v) satisfy the Schroedinger equation for the Davidson potential B c1/2 (beta^2 + beta0^4/beta^2) with energies sqrt(c1)(2 nu + lambda), and for beta0 = 0 that of the harmonic oscillator; (e) for B > 0 and c1, c2 >= 0 no level in a diagonalisation's result lies below sqrt(c1)(v0 + 5/2), with v0 the lowest seniority that has states of that angular momentum in the space, whatever the widths, the lambdas and the truncation.", "quantifier": "all parameters B, c1, c2, kappa in the stated ranges, all widths, all bases with lambda > 1, all label ranges, all nu, v, all points beta > 0, all levels of all successful runs", "why_tests_cant": "the parameters, points and function values are real numbers and the label ranges are unbounded; a test can only compare finitely many numbers, and not with an exact integral", "anchors": ["src/acmpy/hamiltonian_data.py: RWC_Ham, RWC_expt, RWC_alam, lam_dav", "src/acmpy/full_operators.py: RepXspace", "src/acmpy/full_space.py: ACM_ScaleOrAdapt", "src/acmpy/radial_space.py: RepRadial_Prod"]}
{"id": "C79", "title": "The quadrupole and cos(3 gamma) operators have the matrix elements and the normalisation they are documented with", "statement": "The matrix that RepXspace returns for a number times a radial product times one spherical harmonic has, between any two basis states, the entry number/(4 pi) times the SO(5)>SO(3) Clebsch-Gordan coefficient times ME_SO5red times the entry of the radial matrix between the two lambdas, and it exists whenever these do. For beta, 1/beta or d/dbeta and a lambda function that changes by one wherever the harmonic connects (the ACM and oscillator choices for quad_op), the radial factor is exactly the integral of R_f Op R_i over beta, with no truncation error. So quad_op, the default transition operator, is beta times a tensor with reduced elements sqrt((v+1)/(2v+5)) from v to v+1, sqrt((v+2)/(2v+1)) from v to v-1 and zero otherwise, which has length one; quadRigid_op in a basis with constant lambda is that tensor alone, diagonal in the radial label. The harmonics 310 and 610 with the factors of the library have the norm of cos(3 gamma) and of 3 cos(3 gamma)^2 - 1 (the comment in the source says 3 cos(3 gamma) + 1), and the terms c30 beta cos(3 gamma) and c33 cos(3 gamma)/beta of ACM_Hamiltonian are these integrals times a third of ME_SO5red.", "quantifier": "all coefficients, radial products, harmonics, widths, lambda bases, label ranges, all pairs of basis states, all Clebsch-Gordan tables, all seniorities", "why_tests_cant": "label ranges, widths and lambdas are unbounded or real and the radial factor is an improper integral; a test compares finitely many rounded entries", "anchors": ["src/acmpy/internal_operators.py: quad_op, quadRigid_op, Convert_112, Convert_310, Convert_610, ME_SO5red, ME_SO5r3, ACM_Hamiltonian", "src/acmpy/full_operators.py: RepXspace, RepXspace_Twin", "src/acmpy/globals.py: lambda_acm_fun, lambda_sho_fun, lambda_fix_fun", "src/acmpy/radial_space.py: RepRadial_Prod"]}
{"id": "C80", "title": "Matrices computed from data files, when files are missing, appear or change", "statement": "In a process in which the data directory is set, files appear, change or disappear, and coefficients, tables and matrices (RepSO5_Y_rem, RepSO5r3_Prod, RepSO5r3_Prod_rem, the RepXspace routines and RepXspace itself) are requested in any order, every answer and every exception is the one of a process without the lru_cache tables of matrices: these are never seen to be stale. A matrix that has been returned is returned by the same call for the rest of the process, whatever happens to the files. If files only appear, every request is answered as in a process started at that moment, so a call that failed because a file was missing leaves nothing behind and succeeds when it is repeated after the file is supplied. A file that was read while incomplete, or is corrected after it was read, is not read again: a coefficient missing from it goes on raising KeyError, and a corrected one keeps its old value.", "quantifier": "all sequences of requests, changes of directory and changes of the files, all contents of the disk, all label ranges and operators", "why_tests_cant": "histories of requests and of file changes are unbounded, and a call can fail part of the way through, after having filled some tables and not others", "anchors": ["src/acmpy/internal_operators.py: RepSO5_Y_rem, RepSO5r3_Prod, RepSO5r3_Prod_rem, RepSO5r3_Prod_wrk", "src/acmpy/full_operators.py: RepXspace_Pi, RepXspace_PiPi, RepXspace_PiqPi, RepXspace_Twin, RepXspace", "src/acmpy/so5_so3_cg.py: CG_SO5r3, load_CG_table, SO5CGConfig", "src/acmpy/compat.py: readdata_float"]}
{"id": "C81", "title": "Whole sessions: settings, runs, data files and everything a process remembers", "statement": "In a process in which the procedures of globals.py, the drivers ACM_Scale and ACM_Adapt, the display procedures, requests for matrices and coefficients, changes of the data directory and changes of the files happen in any order, everything returned, raised and printed is what a process without the lru_cache tables of matrices shows, provided that the lambda function is changed only when no momentum matrix can be remembered: for instance if it is never changed, if no momentum operator is used, or if every run and every request for the matrix of an operator returns. If besides, once something has been computed, the directory stays and files only appear, each answer is the one of a new process with the same settings, directory and files. A run repeated with the settings left by an earlier attempt shows what it would have shown without that attempt; so a run that is tried again and again while missing files are supplied ends as in a new process that had them from the start. A momentum matrix asked for by itself is returned unchanged after the lambda function has been changed.", "quantifier": "all sequences of calls, requests and file changes, all settings, operators, ranges, contents of the disk and routines for eigenvalues", "why_tests_cant": "histories are unbounded, and a run can fail at any point, having changed some settings, read some files and filled some tables", "anchors": ["src/acmpy/full_space.py: ACM_ScaleOrAdapt, ACM_Scale, ACM_Adapt, DigXspace, AmpXspeig", "src/acmpy/full_operators.py: RepXspace", "src/acmpy/globals.py: ACM_set_basis_type, ACM_set_lambda_fun, ACM_set_defaults, ACM_set_transition", "src/acmpy/so5_so3_cg.py: CG_SO5r3, load_CG_table, SO5CGConfig"]}
{"id": "C82", "title": "What holds in binary64 arithmetic: integer lambdas, symmetric matrices, displayed energies, rates, elementary matrix elements and list comparison", "statement": "Computed in IEEE double precision, rounding included: the Davidson lambda function returns, for every finite C >= 0 and seniority below 2^14, an integer of the parity of v within 1 + 1/128 of the exact expression, is 0 at v = 0, changes by exactly one from v to v+1 and passes ACM_test_lambda_fun on every range; an infinite, undefined or too negative C raises ValueError; the value is not always that of exact arithmetic. The matrix given to the eigenvalue routine is symmetric bit for bit, each entry is the double nearest to the mean of the two mirror entries, and a matrix that was symmetric is not changed; a matrix that is not square raises ValueError. Displayed energies are never negative, keep the order of the eigenvalues, and show the lowest as 0; each is right to a relative 2^-51. After ACM_Adapt the reference energy is shown within a relative 2^-51 of the value asked for, so to the decimals it was given with it prints as that value. Rates are not negative and do not depend on the sign of the amplitude. For integer and half-integer lambda each of ME_Radial_S0, Sp, Sm, b2, bDb, b_pl, b_ml is the double nearest to the exact element, with the exceptions of exact arithmetic, and the matrix of beta^2 is symmetric bit for bit; for other lambdas it need not be (lambda = 0.1), but for lambda >= 1 the elements are right to a relative 2^-50. is_close accepts lists whose entries differ by at most the tolerance, accepts none that differ by more than the tolerance and its rounding, is symmetric, and with tolerance 0 is equality.", "quantifier": "all finite doubles in the stated ranges, seniorities below 2^14, radial labels up to 2^24 (2^50 for the relative error), matrices of any size, lists of any length", "why_tests_cant": "there are 2^64 doubles; rounding can move a floor across an integer for isolated parameters no test would hit", "anchors": ["src/acmpy/globals.py: lambda_davi_fun, ACM_set_basis_type, ACM_test_lambda_fun, quad_rat_fun, mel_rat_fun, unit_rat_fun", "src/acmpy/eigenvalues.py: Eigenfiddle", "src/acmpy/full_space.py: Show_Eigs, ACM_ScaleOrAdapt", "src/acmpy/radial_space.py: ME_Radial_S0, ME_Radial_Sp, ME_Radial_Sm, ME_Radial_bDb, ME_Radial_b_pl, ME_Radial_b_ml", "src/acmpy/radial_operators.py: ME_Radial_b2", "src/acmpy/compat.py: is_zeros, is_close"]}
{"id": "C83", "title": "Arrays returned by the spherical and full-space functions: which are shared, and which the user may change", "statement": "The arrays returned by RepXspace, RepXspace_Prod, RepXspace_Twin and RepSO5r3_Prod are new: nothing else refers to them. RepSO5_Y_rem, RepSO5r3_Prod_rem, RepXspace_Pi, RepXspace_PiPi and RepXspace_PiqPi return the array they remember: two calls return the same array exactly when they are the same call of one of these and no RepXspace has returned in between (for RepSO5_Y_rem, no RepSO5r3_Prod either). No call changes an array the user already has. Consequently, in a session in which the user changes only arrays of the first kind, or arrays of the second kind after they have been forgotten, every answer is that of a new process. Changing an array that is still remembered changes later answers, also those of RepXspace; a call that raised has forgotten nothing.", "quantifier": "all sessions of calls of these functions with any arguments, interleaved with changes to any returned arrays; all coefficients, lambda functions and radial matrices", "why_tests_cant": "which arrays are shared depends on the whole history of calls, exceptions and table clearings", "anchors": ["src/acmpy/internal_operators.py: RepSO5_Y_rem, RepSO5r3_Prod, RepSO5r3_Prod_rem, RepSO5r3_Prod_wrk", "src/acmpy/full_operators.py: RepXspace, RepXspace_Term, RepXspace_Prod, RepXspace_Twin, RepXspace_Pi, RepXspace_PiPi, RepXspace_PiqPi"]}
{"id": "C84", "title": "Matrices of Hamiltonians are symmetric, with stated exceptions", "statement": "For a lambda function that keeps the parity of the seniority (all the built-in ones but the constant one), the matrix that RepXspace computes for ACM_Hamiltonian is symmetric when c31, c32 and c50 are zero, c11 to c23 do not depend on NUMBER, c30 to c43 are numbers, and c42 is zero or lambda never changes by 2; in particular for RWC_Ham. That of ACM_HamRigidBeta is symmetric with harmonics of cos(3 gamma), and with those of its square if c3 = c5 = 0 and the data files are symmetric. The eigen-solver then receives the matrix itself. Between bases with different lambdas the matrix of a power of beta is the transpose of the matrix in the other direction. Exceptions: beta^3 between neighbouring lambdas differs from the transpose of the opposite matrix in exactly the first and last diagonal entries, so that the term c31 beta^3 cos(3 gamma) is not symmetric; a coefficient with NUMBER is not. Reduced elements of the quadrupole operator in the two directions are related by the phase (-1)^(Lf-Li) and sqrt(2L+1).", "quantifier": "all coefficients, basis ranges, scale and lambda parameters, lambda functions, contents of the data files, Gamma functions and matrix functions", "why_tests_cant": "the matrices are products and sums over all ranges of the basis with arbitrary real parameters; symmetry must hold for every entry", "anchors": ["src/acmpy/internal_operators.py: ACM_Hamiltonian, ACM_HamRigidBeta, ACM_HamSH3, ACM_HamSH6, RepSO5r3_Prod", "src/acmpy/full_operators.py: RepXspace", "src/acmpy/radial_space.py: RepRadial_Prod", "src/acmpy/eigenvalues.py: Eigenfiddle"]}
{"id": "C85", "title": "Argument types: booleans are integers, floats are refused, and remembered results bypass the refusal", "statement": "require_int, require_nonnegint, require_nonnegint_range, require_posint, is_even, is_odd, iquo and irem treat True and False as 1 and 0 and refuse every other argument that is not an int, integral floats included, with TypeError, unless an earlier argument is refused with ValueError first. RepXspace_Pi, RepXspace_PiPi, RepXspace_PiqPi and RepSO5_Y_rem called with integers or booleans answer by the matrix or exception of those integers after every history of calls, whatever the types of the arguments of the earlier calls. Called with an argument of another type they raise (TypeError, if nothing else is wrong) unless, since the tables were last cleared, a call with equal numbers passed as integers succeeded, and then they return its matrix: so whether RepXspace_Pi(1.0, 2.5, 0.0, ...) is accepted depends on history; an argument that is not a number is always refused. RepRadial likewise refuses float bounds unless remembered, and before Python 3.12 refuses an integer lambda with AttributeError for 1/beta and 1/beta^2 unless the same lambda was passed as a float before.", "quantifier": "all arguments (int, bool, float, other object), all histories of calls, cache_clear calls and settings, for a fixed lambda function; both versions of int", "why_tests_cant": "The answer depends on the whole history of earlier calls and on the types of all arguments; tests see a few calls in one order.", "anchors": ["src/acmpy/compat.py:require_int,require_nonnegint,require_nonnegint_range,require_posint,is_even,is_odd,iquo,irem", "src/acmpy/full_operators.py:RepXspace_Pi,RepXspace_PiPi,RepXspace_PiqPi", "src/acmpy/internal_operators.py:RepSO5_Y_rem", "src/acmpy/radial_space.py:RepRadial,ME_Radial_bm2,ME_Radial_bm_pl,ME_Radial_bm_ml"]}
{"id": "C86", "title": "A larger basis: which Hamiltonians keep their matrix elements and can only lower their energies", "statement": "For ACM_Hamiltonian with terms beta^2, 1/beta^2, the Laplacian, a constant (any coefficient, symbolic ones included), beta cos(3 gamma) and cos(3 gamma)/beta, the matrix on a basis is a block of the matrix on every larger basis (wider ranges of nu, v and L): the elements between the same states are equal, although products and roots are computed with truncated matrices. With cos^2(3 gamma) terms (alone, times beta^2 or over beta^2) the same holds when only the range of nu is widened. The terms with cos(3 gamma) need lambdas that alternate with the parity of v, as those of the default basis do. ACM_HamRigidBeta without powers of cos(3 gamma) above the second is nested likewise, with any seniorities if written in powers of the second Legendre polynomial (flag 1). In every such case the k-th energy of each angular momentum reported by a run is not raised by a run on a larger basis. With cos^2(3 gamma) as a product of truncated matrices the lowest energy rises when the seniorities are extended from 0 to 0..3.", "quantifier": "all coefficients, ranges, settings, data files, radial scales, lambda bases and symmetric eigensolvers", "why_tests_cant": "Monotonicity in the truncation is a statement about every pair of bases and every coefficient; tests compare a few energies at one truncation.", "anchors": ["src/acmpy/internal_operators.py:ACM_Hamiltonian,ACM_HamRigidBeta,ACM_HamSH3,ACM_HamSH6,RepSO5r3_Prod", "src/acmpy/full_space.py:RepXspace,RepXspace_Prod,RepXspace_Twin,DigXspace,ACM_ScaleOrAdapt,ACM_Scale", "src/acmpy/radial_space.py:RepRadial_Prod,RepRadial"]}
{"id": "C87", "title": "What may depend on the linear algebra library: levels, strengths and reports with another eigenvalue routine", "statement": "Two runs of ACM_Scale, ACM_Adapt or ACM_ScaleOrAdapt with the same arguments and settings, on machines whose np.linalg.eigh, np.linalg.inv and uninitialised memory differ but are correct, return the same angular momenta and energies and fit the same energy scale; if no transitions were asked for they leave the same settings and print the same text. The squared matrix elements summed over the states of one energy and angular momentum and the states of another are the same. A matrix element between states whose energies occur once is the same but for its sign. If no energy occurs twice for an angular momentum and the rate and amplitude procedures in use ignore the sign of the matrix element (as the three rate procedures of the library do), the printed text and all fitted scales are the same. A printed rate between states whose energies occur twice does depend on the routine (25/4 or 81/4 in one case), and so does the sign of a printed amplitude.", "quantifier": "all operators, arguments, settings, transition lists and all pairs of correct routines", "why_tests_cant": "Tests run with one build of one linear algebra library; the choice of eigenvectors in a degenerate level and their signs are fixed there by accident.", "anchors": ["src/acmpy/eigenvalues.py:Eigenfiddle", "src/acmpy/full_space.py:DigXspace,AmpXspeig,Show_Mels,Show_Rats,Show_Amps,Show_Eigs,ACM_ScaleOrAdapt,ACM_Scale,ACM_Adapt", "src/acmpy/globals.py:quad_rat_fun,mel_rat_fun,unit_rat_fun,quad_amp_fun,unit_amp_fun"]}
{"id": "C88", "title": "Formats given by the user: which print the transition and the value, which print something else, which fail and when", "statement": "ACM_set_rat_form and ACM_set_amp_form accept every format text; it is first used, and can first fail, in the next Show_Rats or Show_Amps, after the heading has been printed. A format with a field for the transition and then one for the value, written {} {}, {0} {1}, {!s} {!s} or {0!s} {1!s} (these give the same report), prints for each transition in range the surrounding text, the transition, and the value divided by the scale; any surrounding text can be had, but its braces have to be written four times, because the text is passed through str.format twice: a word in braces written twice, as str.format asks, raises KeyError. The value before the transition raises ValueError. The value alone prints, in its place, the angular momentum of the first state. A format without fields, such as one of the Maple program with %s, is printed unchanged for each transition. Three fields, a lone brace, numbered and unnumbered fields together, a named field, an unknown conversion, or a number specification for the value such as {:7.2f} fail although no transition may be in range.", "quantifier": "all texts, matrices, lists of transitions, rate functions, scales and settings", "why_tests_cant": "The formats are texts chosen by the user; tests use the default ones.", "anchors": ["src/acmpy/globals.py:ACM_set_rat_form,ACM_set_amp_form,def_mel_format,glb_tran_format", "src/acmpy/full_space.py:Show_Mels,Show_Mels_Row,Show_Rats,Show_Amps"]}
{"id": "C89", "title": "Unit and zero of energy: a Hamiltonian multiplied by c > 0 and shifted by E gives the same report", "statement": "Multiply every coefficient of the Hamiltonian by c > 0 and add the constant E (for ACM_Hamiltonian: c20 becomes c*c20 + E; for RWC_Ham: B/c, c^2 c1, c^2 c2, c chi, c kappa). Then every matrix the program makes is c times the old one plus E on the diagonal; whenever both runs of ACM_ScaleOrAdapt come back, every level becomes c x + E, at the same angular momenta; every transition strength is unchanged, whichever sound eigenvalue routines the two runs used. If the energy scale is fitted (or c = 1, or levels are not displayed) and the lowest level is subtracted (or E = 0), the printed report is the same line for line, except for the two numbers in the heading of the list of levels, and the fitted scale is c times the old one.", "quantifier": "all Hamiltonians, c > 0, E, bases, truncations, settings, formats, transition lists and eigenvalue routines that meet their contract", "why_tests_cant": "The Hamiltonians, unit changes and bases are unbounded; a test compares two runs.", "anchors": ["src/acmpy/internal_operators.py:ACM_Hamiltonian", "src/acmpy/hamiltonian_data.py:RWC_Ham", "src/acmpy/full_operators.py:RepXspace,RepXspace_Term,RepXspace_Prod", "src/acmpy/eigenvalues.py:Eigenfiddle", "src/acmpy/full_space.py:DigXspace,Show_Eigs,ACM_ScaleOrAdapt"]}
{"id": "C90", "title": "Unit of length: anorm times c with coefficients rescaled gives the same run", "statement": "Multiply anorm by c (not 0) and the coefficient of every term of the Hamiltonian and of the transition operator by the power of c of its word, where beta counts 1, 1/beta and d/dbeta -1, pi -1, q pi pi -1 and the angular functions and su(1,1) operators 0 (for RWC_Ham: B, c2 by c^2, chi by c). Then every matrix is the same, and the run of ACM_ScaleOrAdapt has the same result or exception, the same output and leaves the same settings. An operator all of whose words have power p has its matrix multiplied by c^-p when only anorm changes. The trial energy and the Davidson lambda of a trial length are unchanged, and the equations for the best length are solved by the rescaled length.", "quantifier": "all operators with numeric or symbolic coefficients, c, bases, truncations, settings, and all eigenvalue, radial-integral and coupling routines", "why_tests_cant": "The operators and units are unbounded; a test compares two runs.", "anchors": ["src/acmpy/radial_space.py", "src/acmpy/full_operators.py:RepXspace,RepXspace_Prod,RepXspace_Twin,RepXspace_Pi", "src/acmpy/internal_operators.py:ACM_Hamiltonian", "src/acmpy/hamiltonian_data.py:RWC_Ham,RWC_expt,RWC_dav,RWC1,RWC2", "src/acmpy/full_space.py:ACM_ScaleOrAdapt"]}
{"id": "C91", "title": "Prolate and oblate: reversing the sign of the odd terms leaves the spectrum and the rates as they are", "statement": "Call a word odd if it has an odd number of factors that are harmonics of odd seniority, pi or q pi pi. The matrix of an even word joins only states whose seniorities have the same parity, that of an odd word only states whose seniorities have different parity. Reverse the sign of the coefficients of all odd terms of a Hamiltonian (for ACM_Hamiltonian: c30, c31, c32, c33 and c50; for RWC_Ham: chi). Then its matrix has the opposite sign between states of seniorities of different parity and is otherwise the same; ACM_ScaleOrAdapt returns the same levels, prints the same list of levels and fits the same scale. If the words of the transition operator are all even or all odd, strengths between levels are the same, amplitudes between levels that occur once are the same but for their sign, moments of such levels have the opposite sign if the transition operator is odd and the same if it is even, and if no level occurs twice and the rate and amplitude functions ignore the sign, all output is the same.", "quantifier": "all operators with numeric or symbolic coefficients, bases, truncations, settings, sound eigenvalue and inversion routines (possibly different in the two runs), all radial routines and coupling coefficients", "why_tests_cant": "Operators, truncations and routines are unbounded; a test compares two runs of one Hamiltonian.", "anchors": ["src/acmpy/internal_operators.py:ME_SO5red,ACM_Hamiltonian", "src/acmpy/spherical_space.py:SpHarm_Table", "src/acmpy/full_operators.py:RepXspace,RepXspace_Prod,RepXspace_Twin,RepXspace_Pi,RepXspace_PiPi,RepXspace_PiqPi", "src/acmpy/hamiltonian_data.py:RWC_Ham", "src/acmpy/full_space.py:ACM_ScaleOrAdapt,DigXspace,AmpXspeig"]}
{"id": "C92", "title": "A stiffer potential or a smaller mass never lowers a level, and sums of the lowest levels are concave in the coefficients", "statement": "Take two Hamiltonians of ACM_Hamiltonian that differ only in c11 (coefficient of the Laplacian), c20 (constant), c21 (beta^2), c22 (beta^4) and c23 (1/beta^2), and let the second have a c11 that is not larger and the other four not smaller. Then, on the same truncated space with the same anorm and basis, the second run of ACM_ScaleOrAdapt returns for every angular momentum the same number of levels, and its k-th level is not below the k-th level of the first, whatever the cos(3 gamma) and pi terms are and whichever values of nu, v and L the space has. Further, for any two choices of all fourteen coefficients and 0 < t < 1, the sum of the k lowest levels of each angular momentum for the coefficients (1-t) c + t c' is at least (1-t) times the first such sum plus t times the second, for every k (for k = 1: the lowest level is concave), with equality when all levels are summed. If c11 <= 0, c21, c22, c23 >= 0 and the remaining coefficients are zero, no level is below c20. The matrix of a Hamiltonian is additive in the fourteen coefficients, although terms whose coefficient is zero are left out.", "quantifier": "all coefficients, truncations, anorm, bases (lambda > 1 for the first claim, lambda > 0 for the second), settings, coupling coefficients and sound eigenvalue routines (possibly different in the runs)", "why_tests_cant": "Coefficients and truncations are unbounded, and the claim compares whole spectra of two or three runs, not only runs whose levels are known.", "anchors": ["src/acmpy/internal_operators.py:ACM_Hamiltonian", "src/acmpy/full_operators.py:RepXspace", "src/acmpy/radial_space.py:RepRadial_Prod_common,ME_Radial_bm2,ME_Radial_D2b", "src/acmpy/radial_operators.py:ME_Radial_b2", "src/acmpy/full_space.py:Eigenfiddle,DigXspace,ACM_ScaleOrAdapt"]}
{"id": "C93", "title": "Levels depend continuously on the coefficients, at a bounded rate", "statement": "For every truncated space, anorm, basis and angular momentum there is a number K >= 0, which depends on nothing else, such that for any two choices of the fourteen numeric coefficients of ACM_Hamiltonian for which ACM_ScaleOrAdapt succeeds, the two lists of levels of that angular momentum are equally long and their k-th entries differ by at most K times the sum of the absolute changes of the coefficients. In particular, for every eps > 0 there is a delta > 0 such that changing each coefficient by less than delta moves no level by eps or more. There are no jumps where a coefficient becomes zero and its term is left out of the operator.", "quantifier": "all pairs of coefficient lists, truncations, anorm, bases, settings, radial routines, coupling coefficients and sound eigenvalue routines (possibly different in the two runs)", "why_tests_cant": "Continuity is a statement about all pairs of nearby coefficients; a test sees finitely many, and none can show that one rate serves them all.", "anchors": ["src/acmpy/internal_operators.py:ACM_Hamiltonian", "src/acmpy/full_operators.py:RepXspace", "src/acmpy/full_space.py:Eigenfiddle,DigXspace,ACM_ScaleOrAdapt"]}
{"id": "C94", "title": "Without gamma-dependent terms, levels belong to seniorities", "statement": "Take a Hamiltonian ACM_Hamiltonian(c11, c20, c21, c22, c23) whose other coefficients are 0. How often a value E occurs among the levels that ACM_ScaleOrAdapt returns for angular momentum L on the seniorities v_min..v_max is the sum over these seniorities v of c(v,E) times the number of SO(3) multiplets of angular momentum L in seniority v, where c(v,E) depends on neither L, nor on v_min and v_max, nor on the eigenvalue routine. So every level belongs to a seniority and is found at every angular momentum and in every space in which that seniority occurs; all angular momenta of one seniority have the same levels, and the same list where the seniority occurs equally often (SO(5) degeneracy); the levels on several seniorities are, with repetitions, those of the runs on each seniority alone put together.", "quantifier": "all five coefficients, anorm, radial truncations, lambda bases, seniority ranges, angular momenta, fit arguments and sound eigenvalue routines (possibly different in the runs compared)", "why_tests_cant": "It compares all runs with each other, at every angular momentum and on every range of seniorities; a test compares a few, and up to rounding.", "anchors": ["src/acmpy/internal_operators.py:ACM_Hamiltonian", "src/acmpy/full_operators.py:RepXspace", "src/acmpy/spherical_space.py:dimSO5r3,lbsSO5r3_rngVvarL", "src/acmpy/full_space.py:Eigenfiddle,DigXspace,ACM_ScaleOrAdapt"]}
{"id": "C95", "title": "The sum of the levels is linear in the coefficients, and the sum of their squares quadratic", "statement": "For every truncated space, anorm, basis and angular momentum there are fourteen numbers tau_k and a symmetric table q_kl with nonnegative diagonal, which depend on nothing else, such that for every choice of the fourteen numeric coefficients c_k of ACM_Hamiltonian for which ACM_ScaleOrAdapt succeeds, the levels of that angular momentum add up to the sum of c_k tau_k and their squares to the sum of c_k c_l q_kl. In particular the mean level of a linear combination of two Hamiltonians is that linear combination of their mean levels.", "quantifier": "all coefficient lists, truncations, anorm, bases, settings, radial routines, coupling coefficients and sound eigenvalue routines", "why_tests_cant": "One set of numbers must serve all coefficients; a test sees finitely many choices, and up to rounding.", "anchors": ["src/acmpy/internal_operators.py:ACM_Hamiltonian", "src/acmpy/full_operators.py:RepXspace", "src/acmpy/full_space.py:Eigenfiddle,DigXspace,ACM_ScaleOrAdapt"]}
{"id": "C96", "title": "Two ways to the same matrix: algebraic and numeric harmonics, classes and functions for beta^2", "statement": "RepSO5_Y_alg raises exactly when RepSO5_Y_rem does, and the same exception; otherwise every entry of its symbolic matrix is a real number and equals the entry of the numeric matrix. On every valid range of nu, RadialOperator_b2(RadialBasis(lambda)).matrix(TruncatedRadialSpace(nu_min, nu_max)) gives the same matrix or exception as RepRadial(ME_Radial_b2, lambda, nu_min, nu_max), so that the square root of beta^2 computed through the classes is the one the radial products use. An invalid range is refused by the classes with ValueError.", "quantifier": "all integer labels, ranges of seniority and angular momentum, coupling coefficients, lambdas, ranges of nu and matrix square root routines", "why_tests_cant": "Agreement of two functions, including when they fail, is a statement about all arguments.", "anchors": ["src/acmpy/internal_operators.py:RepSO5_Y_alg,RepSO5_Y_rem", "src/acmpy/radial_operators.py:RadialOperator,RadialOperator_b2", "src/acmpy/radial_bases.py:RadialBasis,TruncatedRadialSpace", "src/acmpy/radial_space.py:RepRadial,RepRadial_b2_sqrt"]}
{"id": "C97", "title": "Radial operators as keys of remembered products", "statement": "Two KTOp or SOp objects are equal exactly when they are of the same class with the same numbers, and then their hashes are equal; so are tuples of them. Hence the remembered results of RepRadialshfs_Prod, whose first argument is such a tuple, are transparent: in any history of calls and cache clears, whatever the interpreter's hash functions and however they collide, every call returns or raises what the undecorated function would. No product is stored twice, and a call with freshly made equal operators after a successful one, with no clear in between, finds the stored value without computing.", "quantifier": "all operators, tuples, further arguments, hash functions, and histories of calls and clears", "why_tests_cant": "It ranges over all histories and all hash functions, including colliding ones (CPython gives -1 and -2 the same hash).", "anchors": ["src/acmpy/radial_space.py:KTOp.__eq__,KTOp.__hash__,SOp.__eq__,SOp.__hash__,RepRadialshfs_Prod", "src/acmpy/full_operators.py:RepRadial_Prod_rem.cache_clear"]}
{"id": "C98", "title": "Without gamma-dependent terms, quadrupole transitions connect adjacent seniorities only", "statement": "In a run of ACM_Scale or ACM_Adapt with a Hamiltonian of ACM_Hamiltonian without gamma-dependent and momentum terms and the quadrupole operator as transition operator, a non-zero amplitude between two states implies that their levels belong to two seniorities that differ by one: each level is returned by every run, with the same settings, basis and Hamiltonian, on seniorities including its own, for every angular momentum the seniority has. So if, with the levels found by runs on each seniority alone, no two adjacent seniorities have one level each, the amplitude is exactly zero, and a state has no quadrupole moment unless its level belongs to two adjacent seniorities.", "quantifier": "all coefficients, bases, ranges, coupling coefficients, eigenvalue and inversion routines that do what they are documented to do, including any choice of eigenvectors of degenerate levels", "why_tests_cant": "Exact zeros for all Hamiltonians of a class, with any sound eigenvalue routine, cannot be sampled.", "anchors": ["src/acmpy/full_space.py:AmpXspeig,DigXspace", "src/acmpy/internal_operators.py:ACM_Hamiltonian,quad_op,ME_SO5red"]}
