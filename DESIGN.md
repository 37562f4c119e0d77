# Design: machine-checked properties of theboss

Target: `/repo` (Tomev-CTP/theboss, Python, pinned commit), read as text.
Prover: Coq 8.16.1 with mathcomp (algebra, real_closed, algebra-tactics, zify).
Everything lives in `rocq/theories` (logical name `Verif`).

## 1. Method

The Python functions are re-written as total computable Gallina functions, branch
by branch, with comments citing file and lines.

* **Errors** are values: `res A := Ok a | Err e`, `e` one of Python's exceptions.
* **Loops** whose termination is not structural run on explicit fuel; running out
  of fuel is the value `Err OutOfFuel`, and a theorem excludes it by giving a
  sufficient fuel bound (so termination is part of the theorem). For the loops
  that end only with probability 1 (C53, C60) the theorems bound the probability
  of having returned after k rounds from below, and show when it is 0.
* **Object state** (calculators, strategies) is a record passed through the
  functions; methods are state transformers. History-independence theorems
  quantify over an arbitrary starting record.
* **States** (occupation vectors) are `seq nat`, or `seq int` where Python's
  negative numbers matter. **Matrices** are lists of rows.
* **Numbers**: permanents over an arbitrary field of characteristic 0
  (`numFieldType`); probabilities over an arbitrary real closed field `R` with
  complex numbers `R[i]`. Floating-point rounding is *not* modelled: arithmetic is
  exact. This is the largest idealisation and is part of the trusted base.
* **Randomness**: a sampler is a tree `rprog A` (`Ret`, `Unif k` = a call of
  numpy's/`random`'s uniform on [0,1), `Int n k` = a call of randint). Models
  consume the draws in the order of the code and run the code's own cumulative
  searches on them. Three semantics (`SpecProb.v`): `always P p`, every run of `p`
  on draws in [0,1) ends in `P`; `has_exp f p v`, the expectation of `f` is `v`,
  a relation built from step functions of the draws and proved functional (the
  finitely many end points of the steps, a null set, are left out); `same_run`,
  two programs agree draw by draw. Sampling theorems are of the form "for every
  `f`, `has_exp f (simulate ...) (sum of P t * f t)`" or, for k samples,
  `iid_samples`, the k-fold independent version.
* **Specifications** are in `Spec*.v`, which do not import the models: permanent
  as the sum over permutations, states as "all vectors with given sum",
  probabilities as `|Per|^2/(s! t!)`.
* **Property theorems** are in `Prop*.v`, which contain only statements closed by
  `exact lemma.` and `Print Assumptions`, and non-vacuity `Example`s right after
  the theorems they belong to. The lemmas are in `Lem*.v`, the proofs in `Proof*.v`
  and in the mathematics files (`*Math.v`, `Combi.v`, `BsComb.v`, `BsNorm.v`, ...).
* Where the code breaks the property as documented, the true part is proved and
  the false part is refuted by a theorem `..._refuted : exists ...` with a witness.

## 2. What is modelled for each property and how it is proved

C01 `mode_occupation_to_mode_assignment` as nested loop; `mode_assignment_to_mode_occupation` as fold with Python list-index assignment. Induction on the state.
C02 Same model on `int` assignments incl. `max`, IndexError, negative wrap; result characterised by counting.
C03 `_generate_possible_n_particle_states` with its while loop and index search on fuel; invariant: the loop walks along the descending list of compositions; `sorted(reverse=True)` as a sort.
C04 Concatenation over particle numbers, sorted as in the code.
C05 `bosonic_space_dimension` with scipy's exact binomials; Pascal/hockey-stick sums against the cardinality of compositions.
C06 Model with `itertools.combinations`, the hash set, `append`; hash is a parameter. Vacuum branch refuted for k>0.
C07 Model of the recursive generator `_partitions` and the padding; induction on the recursion.
C08 Recurrence for partition numbers vs. list length.
C09 Factorial quotient vs. number of distinct permutations.
C10 The two nested comprehension loops; entries compared with assignments.
C11 The Guan update loop on its digits/direction arrays; the trace is characterised recursively (reflected sweeps) and shown to be a permutation of the box.
C12/C13 Loop invariant (sums, binomial product, multiplier are functions of the current code), hence the accumulated value is the sum over the box; algebraic identity with the permanent by induction on rows (finite-difference argument).
C14 Sum over `itertools.permutations` index tuples vs. sum over the symmetric group.
C15 Same as Chin-Huh at all-one input; Gray index sequence of the external package is a parameter with the hypothesis that it is a Gray code.
C16 Corollary + model of the factory dictionary.
C17 Case analysis on the guard.
C18 State-machine: arbitrary record (stale fields) as starting point, arbitrary operation list.
C19/C20 Invariants as in C12/C13, now for each removed column.
C21-C25 Model of the calculators' loops using the permanent calculators' models; sums over sub-states; normalisation from unitarity by counting/marginal identities.
C26 Cumulative search on weights; interval characterisation; law of the draw; numpy's choice for any list (check of the entries and of the sum, law where it accepts).
C27-C29 Model of the class incl. pmf cache; backward induction on particle number with marginal lemma.
C30 The same for the variant's own code.
C31 Random removal order of particles + Laplace expansion of sub-permanents; invariant on the joint law of (removed particles, partial sample).
C32-C34 Binomial mixture of C27/C31.
C35 GCC law for an isometry, marginalised over the auxiliary modes; bosonic-loss identity for sqrt(eta) V.
C36, C37 Block-matrix algebra; SVD is an oracle with hypothesis M = V·diag(s)·U, V, U unitary.
C38 Root-of-unity sums; exponentials: the primitive root is a parameter.
C39 Diagonal matrix with parameters of unit modulus.
C40 SVD oracle; scaling.
C41 Arithmetic of thread splitting; refutation of BOBS sample count.
C42 State-machine refutation.
C43 Combination of C32-like argument with sqrt(eta) extraction. With at most one approximated mode, or none of them occupied, the phases cancel in the probabilities (`C43_exact_first_call`).
C44, C45 Weights model; sums of hypergeometric terms, refutations on concrete instances.
C46 Sums of absolute values over finite supports.
C47 Coq reals (`ln`, `Rpower`, `up`), uses the standard library's real axioms.
C48 Trial division loop on fuel, `nat` arithmetic (the code's float division is idealised).
C49 Counting loops; sampler is a parameter.
C50, C51 Search loop on a random tape; law of independent particles.
C52 Factory as a dictionary lookup with an explicit heap cell for the calculator.
C53 The R call is a parameter; conversions modelled.
C54 SVD oracle; Frobenius norm.
C55, C56 Law of the lossy-state sampler and of the modes it leaves alone: mixture over the number of lost particles of the fixed-input law; refutations on instances.
C57 Completes C47: the probability of a large total variation distance of the empirical distribution is bounded by a union bound over the events and Hoeffding's inequality (proved for the finite independent model), so the returned bound is valid and the number of samples suffices.
C58 Single particle left: expectation of |evolved_i|^2 over uncorrelated phases.
C59 End to end: C49's counting loop, C57's bound and C27/C33's laws.
C60 Loop invariant "every outcome that extends a cached key is recorded exactly", the cache only grows; programs whose continuation is constant on steps (`ProbTame.v`) have expectations for every function, which gives the union bound over the unseen outcomes.
C61 numpy's subtraction with its broadcasting rule; Cauchy-Schwarz and Minkowski for finite sums.
C62 Attributes that the code reads but nothing defines are options; `None` raises AttributeError.
C63 With all attributes supplied: invariant of the 100 rounds (each round multiplies the same expanded matrix), C35's dilations, the fixed-losses calculator of C22 on 2m modes, completeness of the traced outcomes; refutations on instances.
C64 Permanents under relabelling, phases and conjugate transposition of the matrix, from the permutation-sum form of C01; the laws of C21, C23 and C27 then transfer it to calculators and samplers.
C65 Cauchy-Binet for permanents over modes listed with repetition, by expanding the product and grouping the middle modes by their occupation (`ProofSym2.v`).
C66 One particle removed in front equals one removed behind (`ProofThin.v`); induction on the number of removed particles; binomial weights compose.
C67 Removing all particles but one (C66) reduces the mean to a single particle.
C68 The permanent equals itself times a root of unity that is not 1.
C69 Permutations that mix the blocks contribute 0; the rest split as a product of permutations.
C70 Amplitude vectors indexed by words of modes; replacing one factor of the tensor power at a time, with Cauchy-Schwarz and unitarity; then total variation of k independent samples by induction.
C71 Expectations over continuous draws as limits over partitions of [0,1) (`SpecLim.v`); orthogonality of the characters on finite grids of phases and the Lipschitz continuity of exp(2 pi i x); the multinomial theorem for amplitudes; the spread law is a mixture of the exact law (no two choices agree) with another one; the factorial moment of the binomial distribution; identity network for the attained bound.
C72 The same expectations for the strategy with approximated modes: all particles of the approximated modes in one of them, the Fourier matrix and the random phases expand into a multinomial sum of amplitudes whose characters are orthogonal; the mean commutes with the thinning in front of the network; thinning of the spread input gives the spread of the thinned numbers; the weights differ from those of different modes by the collision probability; the identity network with losses for the lower bound.
C73 The calculators once more over a record of operations (`ModelFloat.v`), equal to those of `ModelPerm.v` for the exact operations; a relation "k roundings of a value bounded by a" closed under the operations (`ProofFloat.v`), carried through the loops of the exact proofs.
C74 The same for the distribution calculators (`ModelFloatDist.v`); signs are kept because every relative error is at most 1.
C75 The samplers once more over the operations, an arbitrary summation algorithm and a discrete `random()` (`ModelFloatGcc.v`). Entries of the pmf by the relation of C73 (`ProofFloatGcc1.v`); the law of the index selected by a rounded search (`ProofFloatSel.v`); the errors add up along the conditional selections, cached layers included (`ProofFloatGcc2.v`); permanents of a perturbed matrix (`ProofFloatGcc3.v`).
C76 The calculators of sub-matrix permanents over an arithmetic (`ModelFloatSub.v`). The binomial coefficient and the sums are followed through the Guan codes as in C73; the coefficients for one particle fewer are formed by dividing by a rounded quotient, so a relation is needed for divisions by numbers that are themselves approximations (`ProofFloatSub.v`); the loop (`ProofFloatSub2.v`).
C77 Version B of the samplers over an arithmetic (`ModelFloatGccB.v`). The choice of numpy: rounded probabilities pass the check of the sum, and the frequency with which an entry is chosen is close to its exact weight (`ProofFloatSelB.v`); the squared permanents from C76 (`ProofFloatGccB1.v`); the loop, with an error recursion over the layers that is weighted by the squared permanents, so that no division by a small probability occurs (`ProofFloatGccB2.v`); k samples and the rounded binomial weights of the losses (`ProofFloatGccB3.v`); exact operations and the binary search (`ProofFloatGccB4.v`).
C78 Operations from a rounding of real numbers (`ModelRound.v`, `SpecRound.v`). Sums and products in any order as trees (`ProofRound1.v`); errors of the real and imaginary parts of complex operations, with the moduli |a|+|b| <= sqrt 2 |a+bi| and Smith's division through real error bounds (`ProofRound2.v`); existence of binary roundings by an archimedean search for the exponent and the digits (`ProofRound3.v`); an invariant for the compensated sum (`ProofRound4.v`); the theorems of C73, C75 and C77 with these operations (`LemRound.v`).
C79 The Guan code calculators for arrays of int64 (`ModelInt64.v`). Wrap-around of sums and powers of two; then the run with another first multiplier is compared with the run of C13, C20: a negated multiplier negates every addend, and exceptions do not depend on the multiplier (`ProofInt64.v`).
C80 Arrays, lists, matrices and calculators as objects in a store (`ModelHeap.v`, views and well-formed stores in `SpecHeap.v`). A simulation with the value models: version A step by step (`ProofHeap1.v`); version B with the invariant that during a sample only lists made in that sample are written, and calculators are compared up to the input state while the shared list is ahead (`ProofHeap2.v`); histories of a user's program (`ProofHeap3.v`); the laws follow from C27, C31 (`ProofHeap4.v`).
C81 `counted` in `SpecCost.v` numbers the draws along every path of a program of random draws; invariants of the sampling loops count them (`ProofCost1.v`). Passes: the loops are monotone in the fuel, and with less fuel than codes the value `OutOfFuel` appears, by induction along the Guan codes (`ProofCost2.v`).
C82 float64 as a set of reals, scipy's factorial and binom and numpy's // as functions with stated properties (`ModelCount.v`; such functions exist, `C82_operations_exist`). Odd parts of divisors of 22! are below 2^53, that of 23! is not (binary integers for the large numbers, `ProofCount.v`).
C83 The networks over an arithmetic (`ModelFloatNet.v`, bounds in `SpecFloatNet.v`). Errors of 1 - s^2, of its root (`ProofFloatNet1.v`) and of products of matrices (`ProofFloatNet2.v`) give a matrix close to the exact expanded one. That one is not unitary, but its columns carrying particles are orthonormal, which is all that the proofs of C77 need (`ProofFloatNet3.v`). Permanents of close matrices give the continuity of the distribution in the network (`ProofFloatNet4.v`). With `ProofFloatBobs7.v` the same follows for a matrix that is a network only up to an error and any backward stable decomposition (`LemFloatNetSvd.v`).
C84 Version A with uniform losses over an arithmetic (`ModelFloatGccU.v`, bounds in `SpecFloatGccU.v`). Errors of the binomial weights and of the recorded values (`ProofFloatGccU1.v`). The invariant of C34 with accurate instead of exact entries, kept by every layer. Expectations as in C75, with the recursion of the binomial mixture: every particle is kept with the fraction of random numbers below eta, which differs from eta by at most 1/N (`ProofFloatGccU2.v`, `ProofFloatGccU3.v`).
C85 The strategies with independent particles over an arithmetic (`ModelFloatFixed.v`, bounds in `SpecFloatFixed.v`). A search in a list of cumulated sums which are up to y exact chooses every index with a frequency that is up to 2(y + 1/N) exact (`ProofFloatFixed1.v`); one particle after another this gives the multinomial law of C50. Amplitudes and their squares: `ProofFloatFixed2.v`; expectations over the phases and k samples: `ProofFloatFixed3.v`; networks and the choice of the number of particles: `ProofFloatFixed4.v`.
C86 The strategy with an approximated state over an arithmetic (`ModelFloatLState.v`, bounds in `SpecFloatLState.v`). A choice among exactly known inputs with weights of small relative error, followed by programs whose expectations are known up to errors (`ProofFloatLState1.v`, `ProofFloatLState4.v`); the Fourier matrix and the products with phases and columns (`ProofFloatLState2.v`); the weights (`ProofFloatLState3.v`); version B of C77 run once for a network known up to an error, the loops over samples and threads (`ProofFloatLState5.v`); total probability and results (`ProofFloatLState6.v`).
C87 The strategy for losses that differ between the modes over an arithmetic (`ModelFloatBobs.v`, bounds in `SpecFloatBobs.v`). The choice of the particles left in a mode, and in all modes one after the other (`ProofFloatBobs1.v`); the network with phases and Fourier matrix, and a sample of the simulator of C83 for it (`ProofFloatBobs2.v`); draws with a finite law, the preparations of simulate, and the law of C43 as a mean over the particles left (`ProofFloatBobs3.v`); one sample, the loops over samples and threads (`ProofFloatBobs4.v`); removing the common losses: the singular values (`ProofFloatBobs5.v`) and the network (`ProofFloatBobs6.v`); every backward stable decomposition is accurate enough (`ProofFloatBobs7.v`); the exact laws of two networks with close entries, and with it a new object compared with the network it was given instead of the one left after removing the common losses (`ProofFloatBobs8.v`).

## 3. Trusted base

* Coq 8.16.1's kernel, and the reading of the Python code into the model.
* `Print Assumptions` output per theorem: see section 4.
* Oracles (section parameters / explicit hypotheses, never axioms), with what is
  assumed about them:
  - singular value decomposition (`numpy.linalg.svd`): `svd_ok`, the factors are
    unitary, the diagonal is real, non-negative, descending, and the product is the
    argument; it is not assumed to be unique; that such a routine exists is proved
    (`C35_svd_exists`); in C83 and C87 `near_svd`, the returned factors are within d of
    those of an exact decomposition of a network (in C87 of one within e1 of the
    argument, `stable_svd`, which `C87_stable_decomposition` derives from backward stability);
  - exponentials of phases: `cis_ok` (addition law, modulus 1, value 1 at k/n exactly
    when n divides k; the argument counts full turns), existence proved over Coq's reals (`C38_exponential_exists`);
    for averages over random phases also `cis_lipschitz` and an archimedean field (both hold: `C71_reals`);
  - Gray-code indices of the package `guancodes`: `gray_ok`, met by the reflected
    code (`Witness.v`);
  - Python's `hash`: `no_collision` on the states involved, where it is used;
  - the R sampler: `r_sampler_ok`, the specification of `bosonSampler`, met by a
    sampler constructed in `C53_sampler_exists`; presence of rpy2 and of the R
    package are parameters;
  - the order in which Python iterates over a set: an arbitrary permutation;
  - numpy's exception for mismatching shapes: parameter `shape_error`;
  - the number of CPUs;
  - uniform random numbers: exact, independent, uniform on [0,1). `np.random.shuffle`
    is modelled as the Fisher-Yates loop it is.
* Simplifications, each also noted at the definition:
  - floating point: all arithmetic is exact (no rounding, overflow, no tolerance of
    `numpy.random.choice`), except in C73 to C78 and C82 to C87; in C73 to C78 and C83 to C87 operations are rounded:
    every operation on complex and real numbers, `abs`, and every conversion of an
    integer has a relative error of at most u, `x ** e` one of at most (1+u)^e - 1,
    changes of sign are exact (no overflow or underflow; integers are Python's or
    int64 without overflow); in C75, C77 and C83 to C87 moreover `sum` of a list has an error of at most
    (1+u)^length - 1 relative to the sum of the absolute values, and `random()` is one
    of N equally likely multiples of 1/N (the phases of C85 to C87 have any finite law); in C77, C83 and C85 to C87 `numpy.random.choice` rejects lists
    whose rounded sum is off by more than 2^-26, forms rounded cumulative sums and
    searches a random number, again a multiple of 1/N, on the right side; in C83 to C87 a
    square root has a relative error of at most u and a sum of n products one of at most
    (1+u)^(n+1) - 1 relative to the sum of the absolute values, and in C85 to C87 phase factors and roots of unity
    have an absolute error of at most c (C78 derives
    the accuracy of the operations, `abs`, `**` and the sums from a relative error of
    single real operations, for the algorithms of numpy in `ModelRound.v`); `NaN` occurs in the model only where the code divides 0 by
    0 (an explicit `None`); `isclose` has its tolerance as a parameter;
    `get_prime_factors` divides exactly (except in C82); binomials, factorials and their
    quotients are exact integers in C05 and C09, float64 numbers in C82;
  - integers are unbounded, except in C79, where the sums of the states and the powers
    taken of them are int64 and wrap around; there a division by the int64 zero gives
    infinity, written `None`, which stays non-finite through the sum;
  - comparisons of complex numbers with reals look at the real part;
  - worker processes run one after the other, each on fresh draws, and their results
    are concatenated in order;
  - in the object-aliasing model of the factory (C52) only calculators are heap
    objects; arrays are values there; in C80 arrays, lists and matrices are objects
    too, for calculators, versions A and B, and B with uniform losses (the other
    strategies are modelled with values only); an exception ends a history;
  - logging, type annotations, abstract base classes.
  - in `bs_appriximated_distribution_from_separable_states_calculator.py` (C62, C63)
    the transmissivity supplied by hand is a positive number whenever the theorems
    speak about values (they assume the rescaled matrix sub-unitary).
* Not modelled: `setup.py`, tests, README.

## 4. Assumptions per theorem

`Print Assumptions` prints "Closed under the global context" for every property
theorem except these, which speak about or use Coq's standard real numbers:

| theorems | axioms of the standard library |
|---|---|
| C47_minimal_samples, C47_any_arguments, C47_monotone | ClassicalDedekindReals.sig_not_dec, ClassicalDedekindReals.sig_forall_dec, FunctionalExtensionality.functional_extensionality_dep, Classical_Prop.classic |
| C57_error_bound, C57_minimal_samples, C59_accuracy, C59_minimal_samples, C59_gcc_agrees_with_exact, C59_uniform_losses_agrees_with_exact, C59_calculate_distribution, C38_exponential_exists, C71_reals | the same and ClassicalEpsilon.constructive_indefinite_description |

No other axiom is used and none is declared.
