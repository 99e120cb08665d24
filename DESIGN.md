# Formal model of Fanpy: design

Source: mqcomplab/Fanpy, read as text from `/repo` (nothing is executed).
Rocq development: `rocq/theories`, logical prefix `Verif`.

## Approach

* **Model files** mirror the Python functions branch by branch as total, computable
  Gallina functions over `list`, `N`, `Z`, `nat`.  Every definition cites file and lines.
  Python exceptions are values: `res A := Ok a | Err e`.
* **Spec files** define what the user expects without using model code
  (bit sets, adjacent transpositions, Fock space with Jordan-Wigner phases, permanents as sums over
  injections, perfect matchings as sets of pairs, ...).
* **Proof files** hold lemmas, **Prop files** (`P_*.v`) hold the theorems `Cxx_...` (with the lemmas used
  only there), followed by `Print Assumptions` and by non-vacuity `Example`s.
* Numbers (floats in the code) are elements of an arbitrary commutative ring or field (`Alg.v`), so results
  hold for integers, rationals, reals, complex numbers.  Derivatives are formal (polynomials, dual
  numbers or sums over products) or, where a quotient or a real power occurs, `derivable_pt_lim` over
  Coq's reals.  Rounding is not modelled.
* Where the code violates the intended property the faithful model is kept and a theorem with suffix
  `_refuted` gives the witness; the strongest true guarded statement is proved beside it.

## Plan per property

| id | model | method |
|----|-------|--------|
| C01-C09 | `tools/slater.py` bit functions, on `option N`; digit strings as `list bool` | induction on `positive` digits, `N.testbit` extensionality |
| C10 | `sign_perm` on lists of `Z` | inversion parity, induction over adjacent swaps |
| C11, C12 | `sign_swap`, `sign_excite` | Fock-space ladder operators (spec) proved to satisfy the anticommutation relations; induction over operator strings |
| C13-C15 | `excite_bulk*`, `sign_excite_one/two/two_ab/array` | itertools.combinations as list function, proofs of soundness, completeness, NoDup; bin-count invariant |
| C16-C18 | `tools/sd_list.py` | composition of the above; prefix argument for the limit |
| C19-C23 | `tools/graphs.py` generators as list functions | induction on the recursion; permutation generator as state machine |
| C24-C26 | permanents in `tools/math_tools.py` | sums over injections; inclusion-exclusion for Ryser; Borchardt may stay partial |
| C28-C33 | Hamiltonian matrix elements | Fock-space expectation value as spec; Slater-Condon case analysis |
| C34 | parameter index conversion | arithmetic induction over rows |
| C35 | Hamiltonian derivatives | first-order variation of integrals, linearity |
| C36 | `assign_params`/`set_ref_ints` | state machine over an abstract group of rotations |
| C37 | Jacobi rotations | array model as functions; slice-view aliasing modelled explicitly |
| C38, C40 | density matrices | Fock-space expectation values |
| C39, C41 | CI classes | list lookups; `sd_list` theorems |
| C42-C45 | geminals | triangular index arithmetic; permanents and matchings |
| C46, C47 | coupled cluster | partitions of excitations |
| C48 | caches | state machine, invariant "cache entries equal fresh values" |
| C49 | MPS | index arithmetic, matrix products |
| C50 | composites | list products |
| C51-C54 | `eqn/utils.py`, `eqn/base.py` | state machine / list scatter |
| C55, C56, C59 | energies and equations | derivatives over the reals |
| C57, C58 | history properties | state machines with exceptions |
| C60, C61 | `unitary_matrix`; default and copied parameters of geminals | truncated series; as C42-C45 |
| C62 | pair coupled cluster | rows of the tables of C47 under the filter, regrouped by spatial orbital |
| C63 | rotated orbitals | operators acting on overlaps; determinants of orbitals by intertwining |
| C64 | nonorthogonal orbitals | Cauchy-Binet expansion of products of creation operators acting on overlaps; derivatives by multilinearity |
| C65 | geminals of rank two | Borchardt's identity for every column set (C26), its derivatives by rows and columns; linear equations of the conversion |
| C66 | creation operators | Pfaffian recursion against the sum over sorted matchings; h-th power of one geminal |
| C67 | ratios of determinants | overlap of a product of orbital creators; determinants are affine in an entry; writes of a loop to distinct indices |
| C68 | products of quasiparticles | product expanded over lists of blocks; blocks of even size commute; permanent of the columns; partitions from C21; first partition by induction |
| C69 | feed-forward network | inputs are products of occupation numbers; reverse accumulation equals forward tangent; product rule; columns of the vectorized arrays |
| C70 | solvers | linear algebra of a complete orthonormal set of eigenvectors; induction over the optimizer, an arbitrary adaptive strategy; call histories of the Hamiltonian |
| C71 | perturbation theory | residuals as polynomials in the step; coefficients of the equations along the series, compared with the equations of the responses order by order |
| C72 | PyCI interface, projected equations | derivatives row by row; sums over chunks; induction over masks |
| C73 | perturbation theory, driver | case analysis of the constructors; invariant of the loop over lambda; matrix algebra and induction over the order for the resummation |
| C74 | coupled cluster of restricted seniority | the checks of partners as number operators; rows of tables as in C47, each with the matrix element of its operators; invariant of the stored tables |
| C75 | embedded coupled cluster | orbitals of a subsystem specified by counting smaller orbitals of its list; invariant of the loop over the subsystems: keys counted without gaps, amplitudes kept; overlaps as in C47 |
| C76 | projection spaces and references of the objectives | acceptance as equivalences with a specification of fitting determinants; completeness from C17; energies reduced to sums over the support of the overlaps (`sumf_support`), Hamiltonian through C28 and C33; lower bound from the spectral decomposition of C70 |
| C77 | natural orbitals of CI wavefunctions | spectral decomposition under the permutation of argsort; density matrix from C40, trace from C38; bounds: quadratic forms of the density matrix as sums of squares of the amplitudes of a\|psi> and a+\|psi>, added up by the anticommutation relations |
| C78 | Hamiltonians of `ham_factory` | induction over the loops; determinants in reach from `moved_exact` (C17), sum over the whole space by support; elements from C28 |
| C79 | `adjugate`, `eigh`, `power_symmetric` | expansion of determinants along rows with another row in place (equal rows vanish), transposition, uniqueness of the inverse |
| C80 | wavefunctions of `wfn_factory` | sums of the loops from C78, laws of derivatives term by term |

Nothing in the list is inexpressible.

## What is modelled

Every definition of a model file cites file and lines of the Python code.  Model files, with the code they
follow:

| Python | model | left out |
|--------|-------|----------|
| `tools/slater.py` | `Slater.v` | negative ints as determinants; numpy dtypes except the 64 bit limits of `excite_bulk`, `get_spin`, `interleave` where they are observable |
| `tools/sd_list.py` | `SdList.v` | floating spins that are not half integers |
| `tools/graphs.py` | `Graphs.v` | generators are the lists of the values they yield |
| `tools/math_tools.py` | `MathTools.v` (permanents), `HamRot.v` (`unitary_matrix`), `MathAdj.v` (`adjugate`, `eigh`, `power_symmetric`) | type checks of the arguments; the warnings that `eigh` prints |
| `ham/generalized_base.py`, `generalized_chemical.py` | `HamGen.v`, `HamDeriv.v`, `HamRot.v` | `_integrate_sd_sds_deriv_*`, `integrate_sd_wfn` with `wfn_deriv` |
| `ham/restricted_chemical.py`, `unrestricted_base.py`, `unrestricted_chemical.py`, `senzero.py` | `HamRes.v`, `HamSen.v`, `HamDeriv.v`, `HamRot.v` | `_integrate_sd_sds_deriv_*` |
| `ham/density.py` | `Density.v` | - |
| `wfn/base.py` | `WfnCI.v`, `Cache.v` | memory limits as bytes (a capacity instead), `normalize` |
| `wfn/ci/*` | `WfnCI.v`, `WfnHCI.v` | file input of parameters |
| `wfn/geminal/base, apg, apig, apsetg, ap1rog` | `Geminal.v`, `AP1roG.v`, `WfnCached.v`, `EqnNorm.v` | - |
| `wfn/cc/base, standard_cc, generalized_cc, ccs` | `CC.v`, `CCCache.v` | the `*_NEW` files |
| `wfn/cc/seniority_cc.py` | `SenCC.v` | a CI wavefunction as reference beyond its checks; the `functools` cache; type checks |
| `wfn/cc/embedding.py` | `EmbCC.v` | subsystems of classes other than those of `CC.v`; `dict_system_sub` (kept for tests only) |
| `wfn/cc/pccd_ap1rog, ap1rog_spin, ap1rog_generalized, apg1ro_d, apg1ro_sd, apset1rog_d, apset1rog_sd, ccsd_sen0, ccsdq_sen0, ccsdtq_sen0, ccsdt_sen2_q_sen0` | `Pccd.v` | a CI wavefunction as reference; the `functools` cache (C48 has it for the base class) |
| `wfn/network/mps.py` | `Mps.v` | - |
| `wfn/composite/lincomb, product, embedding, embedding_fixedelectron` | `Composite.v` | - |
| `wfn/composite/jacobi, base_one` | `Jacobi.v` | parameters with other than one entry (accepted by the code) |
| `wfn/geminal/rank2_approx, apr2g` | `Rank2.v` | `numpy.linalg.lstsq`, the random noise and the two comparisons with thresholds are arguments; method `svd` of `full_to_rank2` |
| `wfn/composite/nonorth` | `Nonorth.v` | noise, dtypes, the 64 bit limit of numpy integers as orbitals; `numpy.linalg.det` is exact |
| `wfn/creation_cc.py` | `Creation.v` | noise, dtypes, memory |
| `wfn/quasiparticle/det_ratio.py` | `DetRatio.v` | noise, dtypes, masks with several dimensions; the random columns are an argument; division by zero is the field's |
| `wfn/quasiparticle/base.py, tetret.py` | `Quasi.v` | noise, dtypes, subsets that are not lists of integers; the generator of partitions of the base class is an argument |
| `wfn/network/rbm.py` | `Rbm.v` | noise, dtypes, lists of arrays of other shapes (accepted by the code); `numpy.exp` and the power with a real exponent are arguments; what `normalize` prints |
| `solver/ci.py`, `system.py`, `equation.py`, `wrappers.py` (`wrap_scipy`) | `Solver.v`, `SolverHam.v` | type checks, printing, file names, numerical options; `scipy.linalg.eigh` is an argument with a contract, the optimizers are arbitrary strategies that call what they are given; `wrap_skopt` |
| `interface/fanci/legacy.py` (constraints, `compute_objective`, `compute_jacobian`, masks) | `Fanci.v` | pyci operators, sections of determinants and overlaps are arguments; `optimize` and the stochastic optimizers, the construction of determinants, caches and printing |
| `fanpt/*` | `Fanpt.v` | determinants are numbers, pyci operators are a function of the Hamiltonian; `lstsq`, `inv` and comparisons of numbers are arguments; type checks and printing |
| `eqn/utils.py`, `eqn/base.py` | `ParamSel.v`, `SaveNames.v`, `EqnBase.v` | reading and writing of the files themselves |
| `eqn/energy_oneside, energy_twoside, energy_variational, local_energy, projected`, `constraints/norm` | `EqnObj.v`; projection spaces and references: `Pspace.v` | types of the remaining constructor arguments, printing; booleans and negative integers as determinants |
| `analysis/orbitals/natural_orbitals/ci.py` | `NatOrb.v` | `scipy.linalg.eigh` and `numpy.argsort` are arguments with a contract; `save_natural_orbitals` |
| `ham/utils.py` | `HamFac.v` | the functions given to `ham_factory` and the wavefunction are arguments; broadcasting of arrays of different lengths |
| `wfn/utils.py` (`wfn_factory`) | `WfnFac.v` | the functions given are arguments; nelec, nspin, memory; a given `assign_params` |
| `eqn/least_squares.py`, `constraints/energy.py` | `EqnObj.v`, `LsModel.v`, `EnergyCons.v` | - |

Not modelled at all: `analysis` (but natural orbitals), `interface` (but `fanci/legacy.py`), `scripts`, `convert_to_fanci` of `wfn/utils.py`.

Simplifications used throughout: exact arithmetic instead of floats; arrays as lists or functions with
explicit bounds; type checks on arguments whose type Gallina already fixes are dropped; objects are
records and mutation is state passing; calls to components whose code is arbitrary (a user's wavefunction,
Hamiltonian, constraint or SciPy routine) are function arguments quantified over in the theorem, with the
contract stated as a hypothesis.

## Trusted base

* Coq 8.16.1 kernel and `coqchk`.
* Axioms as listed by `Print Assumptions` (printed in every `P_*.v` file).  All theorems are closed under
  the global context except the ones over Coq's reals:
  - `C57_zero`, `C65_real`, `C70_brute_minimum`, `C76_lower_bound`, `C77_expectation_bounds`, `C77_bounds`: `functional_extensionality_dep`, `ClassicalDedekindReals.sig_forall_dec`;
  - `C63_real`, `C69_real`, `C69_positive`: those two and `ClassicalDedekindReals.sig_not_dec`;
  - `C55_normalize_refuted`, `C55_normalized`, `C56_normalize_refuted`, `C69_normalize_real` and all of `C58_*`: those two,
    `ClassicalDedekindReals.sig_not_dec` and `classic`.

  All of them are axioms of the standard library.
* The hand translation from Python to Gallina, documented in the comments of the model files.

## Findings

Places where the code does not do what its documentation or the property says, proved as theorems:

* C04: `ground(0, n)` is a ValueError.  C08: `is_alpha`/`spatial_index` accept the index `2*nspatial`.
* C13: `excite_bulk` is wrong from 63 orbitals on.  C16-C18: hierarchy arguments of `sd_list` (spin filter,
  order 0, length limit).
* C21: `generate_unordered_partition` with bins of size zero, no bins or several bin sizes.  C23:
  `generate_general_pmatch` uses pairs that are not edges.
* C28: `integrate_sd_sd` of the vacuum; C32: `senzero` components with derivatives; C33: restricted
  Hamiltonian with 64 spin orbitals (OverflowError).
* C34: out of range parameter index; C35: array form of the derivative and symmetric integrals; C37: stale caches
  after a rotation.  C38: documented index formulas, repeated determinants.
* C40: repeated determinants; C41: seniority of DOCI subclasses, hCI with an odd number of electrons and
  the hierarchy number overshooting.  C43-C45: electron count of geminals, single geminal, sign of AP1roG.
* C47: CCS, CI reference, given combinations and generalized operators.  C48: enabling the cache twice,
  changing the reference of AP1roG.  C49, C50: sizes and empty cases.
* C51: equality of selections; C53: colliding file names; C55, C56: normalisation; C57: the number of equations
  after an exception; C58: queue of size zero.
* C61: copying parameters from APsetG is a TypeError in APG and APsetG and gives zeros in APIG; copying from APIG to
  APG changes the sign of all overlaps if the number of pairs is odd.
* C62: PCCD has the amplitudes of its docstring with opposite sign; the product of the docstring of CCSDsen0
  contains products of two singles of one pair that the overlap leaves out; quadruples never contribute because their
  tuples are not sorted; with a reference other than the ground state seven classes keep the operators of
  the ground state, the other four filter with a stale list; `indices` of APset1roGD changes the number of operators but
  not of amplitudes, is ignored by the doubles of APset1roGSD, and unordered orbitals give dead
  amplitudes; passing `exop_combinations` makes all overlaps fail.
* C63: the setters of `JacobiWavefunction` (orbital type, indices, wavefunction) and new parameters of the wrapped
  wavefunction leave old overlaps in the cache; unrestricted indices beyond `nspin` are accepted; `assign_orbtype` does
  not look at the indices; the docstring gives f(m)(cos +- sin); `seniority` is not kept by rotations.
* C64: derivatives of `NonorthWavefunction` have wrong signs for restricted orbitals with both spins (or only beta)
  occupied and other electrons present, and for unrestricted beta orbitals with more than one beta electron; a list of
  parameters must be all of them, and the order of the list is ignored; overlaps use the number of orbitals of the
  outer wavefunction for the beta orbitals of the inner one; generalized orbitals raise for determinants with another
  number of electrons; caches and `seniority` as for C63.
* C65: with more geminals than pairs, the derivative returned for a further lambda is that of a zeta; with one pair and
  several geminals the derivative raises `IndexError`; `assign_params` accepts arrays of any length and equal lambdas,
  and stores parameters before refusing them, without clearing the cache; copying another geminal raises
  `NotImplementedError`; scaling the parameters, as `normalize` does, changes no overlap.
* C66: parameters given for pairs of the reference are replaced by one, in the array of the caller; a pair of occupied
  orbitals that is not listed raises `ValueError` instead of counting as zero; of determinants with more electrons only
  the lowest `nelec` orbitals are read, those with fewer raise `IndexError`; the number of parameters is not checked,
  and the default number of them ignores the given pairs.
* C67: for determinants with another number of electrons the derivatives are the number 0 instead of an array; the
  number of parameters is not checked before an overlap is computed; `assign_numerator_mask` leaves the caches filled;
  with a mask that is false everywhere the default parameters are not those of the ground state.
* C68: determinants with fewer electrons (a multiple of four) have nonzero overlaps, those of the first quasiparticles;
  their derivatives raise `IndexError` if there is one block; so do the overlaps of the vacuum and of determinants with
  more electrons; with odd and even subsets together the overlap is wrong, and the derivatives of products of odd
  subsets lack the sign of the cofactor.
* C69: `RestrictedBoltzmannMachine` made with given parameters never sets `output_scale`: every overlap raises
  `AttributeError`; arrays with too many weights are truncated silently; determinants of any number of electrons have
  nonzero overlaps; `get_overlaps` raises `IndexError` if an order other than the last is greater than one and `ValueError`
  if the determinants differ in the number of electrons, although `get_overlap` works for each; `normalize()` of a new
  wavefunction divides by zero, as `pspace_norm` is empty; `assign_params(None)` keeps the scale of a normalization.
* C70: `brute` with `save_file` stores the parameters that the wavefunction had before, the solution is not assigned
  (`C70_brute_save_refuted`).  `root` counts constraints instead of their equations when it drops equations, and its slice end
  becomes negative for fewer parameters than constraints; the system that is left raises at every evaluation
  (`C70_root_multi_refuted`, `C70_root_negative_refuted`).  `least_squares` and `root` report the energy stored at the last
  evaluation, also if the optimizer rejected that point, and leave its parameters in the objective (`C70_energy_refuted`; for
  optimizers that end with the solution `C70_energy`, `C70_root_energy`).  The callback of `minimize` sets
  `update_prev_prams`, so that the Hamiltonian is never refreshed (`C70_callback_refuted`).

Observed while reading, not (or not yet) stated as theorems: `optimize_orbitals` mutates the caller's
`ComponentParameterIndices`; `StandardCC` builds its operators from the default reference even if another one is
given; `unitary_matrix` discards imaginary parts; the unrestricted
`orb_rotate_jacobi` rejects integer angles; `LocalEnergy.gradient` computes and discards a derivative;
derivatives with respect to components of a nested composite are zero; `get_overlaps` of an embedded
wavefunction on no determinants is the scalar 1.0; `enable_cache` of coupled cluster does not cache the second
derivative; the parameters of a system used as a constraint have no gradient.
* C71: the constant terms of the third order use the second response where the first is due (`C71_third_order`,
  `C71_third_order_refuted`).  Without the second derivatives, which is the default, no order improves on the second power of
  the step for wavefunctions that are not linear (`C71_second_order_missing`).  The constraint on the norm is not kept by the
  update (`C71_norm_change`, `C71_norm_kept_refuted`).
* C72: `add_constraint` and `remove_constraint` always raise `TypeError`, the property `constraints` being a tuple
  (`C72_change_constraints_refuted`).  The parameters fed to the wavefunction by the overlaps and by their derivatives differ
  if the selected parameters are not the first ones (`C72_feed`, `C72_feed_refuted`).
* C71, energy-free: the second order has no term with the second derivatives with respect to the parameters, which is not zero
  even for linear overlaps (`C71_free_second_order_refuted`).  The row of the reference is zero (`C71_free_reference`), so the
  matrix that a resummation inverts is singular (`C71_free_resum_refuted`); with a constrained reference the resummation raises
  `TypeError` (`C73_refusals`).  FANPT itself therefore never resums.
* C73: the ideal Hamiltonian is not symmetric under exchange of the electrons (`C73_fock_symmetry_refuted`); with `lambda_i`
  other than 0 the first step combines the container at `lambda_i` with the objective of the ideal Hamiltonian
  (`C73_first_step_refuted`); explicit zeros given to `optimize` are ignored (`C73_zero_arguments_refuted`); a given solver is
  never called and `responses` is missing (`C73_solver_refuted`); the resummation takes `final_l` for the step
  (`C73_resummed`, `C73_resummed_refuted`) and is dropped silently where it does not apply (`C73_resum_dropped_refuted`).
* C74: the derivative at the reference is the float 0.0 and indexing it raises `TypeError` (`C74_reference_derivative_refuted`); CI
  references and given combinations make overlaps raise `AttributeError` (`C74_ci_reference_refuted`,
  `C74_given_combinations_refuted`); with the default operators the overlap with the reference is 1 although the exponential returns to
  it (`C74_default_refuted`).
* C75: the reference is the ground determinant of the whole, not the product of those of the subsystems, whose overlap can be zero with
  all amplitudes non-zero (`C75_product_reference_refuted`); if the list of ranks starts with None, ranks above two are dropped
  (`C75_ranks_refuted`); operators between subsystems whose orbitals are not sorted are accepted and ignored
  (`C75_inter_order_refuted`); more lists of orbitals than subsystems are accepted, subsystems then share orbitals and amplitudes
  are lost (`C75_lists_refuted`); given combinations make overlaps raise `AttributeError` (`C75_given_combinations_refuted`).
* C76: `ProjectedSchrodinger` does not compare the determinants of the projection space with the electrons and orbitals of the
  wavefunction; those of the reference are only compared by the default constraint (`C76_projected_electrons_refuted`). A list of CI
  wavefunctions as reference of the one-sided energy is documented and raises `TypeError` (`C76_ci_list_refuted`).
* C77: molecular orbitals with more or fewer atomic than spatial orbitals make `compute_natural_orbitals` raise `ValueError`; a
  single row is repeated (`C77_rectangular_refuted`). Elements of the density matrix between the spins are ignored
  (`C77_mixed_refuted`).
* C78: `ham_factory` adds the determinant itself before the loop over the orders, so that an order 0, or an order given twice,
  counts determinants twice (`C78_orders_refuted`; with multiplicities `C78_orders`).
* C79: `math_tools.eigh` evaluates `-kept_indices` with an array of booleans, which numpy refuses with `TypeError`; `eigh` and
  `power_symmetric`, which calls it, never return (`C79_eigh_refuted`, `C79_power_refuted`).

## Tests of the theorems

`seeded/LOG.jsonl` lists the wrong programs (edited model definitions) tried against the theorems, which theorems
stopped holding, and which theorems were tightened when none did.
