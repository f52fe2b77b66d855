# Formal model of DomiDre/gauss-quad in Rocq (Coq 8.16.1)

## 1. Shape of the model

The crate is numeric code: `f64` arithmetic around small control structures
(ranges, folds, table lookups, an eigenvalue solver, a sort, rayon).  The model
follows the source function by function and is **generic in the arithmetic**:
every modelled function takes a record `Arith` of operations
(`theories/Arith.v`).  It is instantiated twice:

* `F64` (`theories/F64.v`): IEEE-754 binary64 from Flocq (`IEEE754.Binary`),
  with NaN payloads.  The payload chosen for a produced NaN, and the functions
  `sin`, `cos`, `pow` of the math backend (std or libm), are universally
  quantified: theorems hold for every choice.  `sqrt` is the correctly rounded
  IEEE operation.  Decimal literals are correctly rounded inside Coq.
* `RA` (`theories/RInst.v`): Coq's real numbers; `PI` is pi, `E` is e, literals
  are exact decimals, `sin`, `cos`, `pow`, `sqrt` are the true functions.

The *same* definitions (`Midpoint.integrate`, `GaussLegendre::new`, ...) are
therefore what the floating-point theorems and the exact-arithmetic theorems
talk about.

Other modelling decisions

| Rust | model |
|---|---|
| `usize`, `NonZeroUsize` | `Z` with an explicit maximum `umax`; `+`/`-` go through `usize_add`/`usize_sub`, which panic (debug) or wrap (release) on overflow |
| `u32`, `NonZeroU32` | `Z` in `[0, 2^32)` |
| panic (index out of bounds, overflow in debug) | `Panic` in the result type `Res` |
| `FnMut(f64) -> f64` integrand | state passing function `S -> F -> F * S`, `S` arbitrary; the trace of calls is observable by taking `S := list F` |
| `Iterator::sum::<f64>()` | left fold of `+` starting from `-0.0` (Rust >= 1.83) |
| slice iterators, `vec::IntoIter`, `Range`, `Map` | explicit state machines (`Iter.v`) |
| rayon | a *schedule* is an arbitrary binary splitting tree of the index range; `sum` adds the leaf sums along the tree, indexed `collect` concatenates |
| `nalgebra::symmetric_eigen` | quantified oracle from matrices to (eigenvalues, eigenvector matrix). Theorems that need it assume it is an exact orthonormal eigendecomposition (in R); others hold for any output, even garbage |
| `sort_unstable_by` | quantified oracle assumed to return a sorted permutation with respect to the comparator it is given (an insertion sort satisfies this) |
| f64 parsing / formatting | quantified oracle |
| serde derive | documents (numbers, integers, sequences, maps); visitors with one slot per field; a newtype struct deserializes the inner value without validation |

Nothing of the above is an axiom: oracles are ordinary arguments of the
functions and theorems.

Not modelled: memory allocation and its failure, `Debug` output, feature-flag
plumbing, rkyv archives, zerocopy layout traits other than the parameter's bytes, doc tests, benches, thread creation.

## 2. Files (rocq/theories)

* **Model** (every definition cites file and lines in /repo): `Arith` `F64`
  `RInst` `Machine` `Param` `Iter` `Rules` `Par` `NewtonCotes` `Chebyshev`
  `GolubWelsch` `Gamma` `Hermite` `Laguerre` `Serde` `ParamMore` `LegendreData` (generated from
  `/repo/src/legendre/bogaert/data.rs` by `tools/gen_data.py`) `Legendre`
  `Jacobi`.
* **Specification** `*Spec.v`: small files, independent of the proofs: what the
  reader needs to know to read the theorems (`F64Spec` value of a double,
  `ParamSpec` reachable parameters, `IterSpec` deques, `PolySpec` polynomials
  and exactness, `WeightSpec`/`ChebSpec`/`TransferSpec` weighted integrals,
  `EigenSpec` exact eigendecomposition, `RoundSpec` error bounds, ...).
* **Proofs**: everything else. Main chains:
  * doubles: `F64Proof` `ParamProof` `SignProof` `SignRules` `SignWeights`
    `ZeroProof` `EqProof` `Round*` `Inside*` `JacobiFinite` `JacobiFloat`
    `JacobiNan` (witnesses computed with `vm_compute` on closed booleans);
  * serialization and errors: `SerdeProof` `SerdeBad` `ParamMoreProof`;
  * data access: `IterProof`; calls: `IntegrateProof` `TraceProof` `FreeProof`
    (arithmetic on formal expressions makes the calls observable) `NestProof`;
  * Newton-Cotes: `NCReal` `NCExact` `NCError` `NCBound` `NCRiemann` `NCMore` `NCShape`;
  * Golub-Welsch: `GWProof` `EigenProof` `Spectral` (every such matrix has an
    exact decomposition, so the oracle hypothesis is satisfiable) `GWRoots`;
  * weights: `Improper` `ImproperExist` `Gaussian` `LaguerreWeight`
    `JacobiWeight` `OrthoProof` (Pearson equations) `GaussExact` `JacobiMore`;
  * Chebyshev: `ChebExact` `ChebRule`; other intervals: `TransferProof`;
  * Legendre: `LegSym` `LegTable` `LegShape` `LegAsym` (n > 100: bounds on the
    asymptotic corrections); tables: `FixPoint` `Fix63` `LegCheck` `LegRun`
    (fixed-point evaluation by the VM) `LegCheb` `LegMom` `LegPoly` `LegInt`;
  * gamma: `GammaProof` (reflection, sign), `GammaTrue` (Euler's integral),
    `GamPoly` `GamRatio` `GamPsi` `GamAcc` `GamNum` `GamReflect` `GamAll`
    `GamRule` (error bound 1.2e-13);
  * error bounds and convergence: `Interp` `GaussErr` `ErrRules` `ErrCheb`
    `Bernstein` `ErrConv` `ErrLimit` `ErrLeg` `ErrSharp` `ErrEx`.
  * one-sided bounds, geometric convergence, absolute convergence on infinite
    ranges: `GaussSide` `LegSide` `Geometric` `ConvGen` `ConvAbs` `ConvRules`
    `ConvEx`; monotone and Riemann-integrable integrands: `StepPoly` `MonoRule`
    `MonoLeg` `LegWeight` `RieStep` `RieLeg` `AngleRule` `NodeRange` `LipSpec` `LipRule` `LipLeg` `InterSpec` `Interlace` `ScaleSpec` `Scale` `ScaleVar` `ScaleEx` `VarSpec` `Jordan` `MonoInt` `VarRule` `ParSpec` `Parity` `ParEx` `FourierSpec` `Trig` `Fourier` `FourierEx` `Lead` `LeadUse` `DoubleSpec` `DoubleInt` `DoubleLeg` `DoubleFloatSpec` `DoubleFloat` `DoubleFloatEx` `RegionFloat` `RegionEx` `IneqSpec` `Ineq` `IneqEx` `ExpConvSpec` `ExpConv` `ExpConvEx` `SingularSpec` `Singular` `SingularEx`; relations between
    rules: `Mirror` `Delegate`;
  * Legendre against the true rule: `Bern` `Ode` `LegOde` `LegZero*` `BogCmp`
    `BogGauss` `BogLeg` `BogMap` `BogPair` `BogPoly` `BogRoot` `BogRule` `BogT`
    `BogUse` (degrees above 100), `Bessel` `BesselJ` `BesselTab` `McMahon`
    `McPair` `McPoly` `McRule` (Bessel zeros), `TM` `SinSer` (Taylor models),
    `LegBig*` (consequences for all degrees);
  * solvers that are not exact: `Inexact*`; arithmetic with exceptional values:
    `Exc` `Finite*` `Order` `OrderUse`;
  * doubles from the call to the integral: `AccCount` `AccF64` `ChebFloat`
    `LegFloat` `LegBigFloat` `BogFloat` `GamFloat*` `GaussFloat*` `JacFloat*`
    `NCFloat*` `TrigEx`; separation of nodes: `Sep*`; signs: `SignMore`;
  * examples used by the properties: `*Ex` `*Examples`; small shared lemmas:
    `RSum` `RInstProof` `PolyProof` `GaussProof` `SizeProof` `SmallRules`
    `KeyOrder` `DegreeProof` `ExtraProof`.
* **Properties** `Prop_*.v`: only the property theorems (each closed with
  `exact lemma`), their `Print Assumptions`, and examples showing that the
  hypotheses can be met.

## 3. Plan per property

| id | modelled how | proved how |
|---|---|---|
| C01 | `Param.new` on F64 | case analysis on binary_float, `Bcompare_correct` |
| C02 | inductive reachability over the constructor/checked_* API | induction on histories |
| C03 | `checked_*` on F64 | Flocq `Bplus_correct` & co |
| C04 | `try_from`, `from_str` with parser oracle | case analysis |
| C05 | formatting oracle with round-trip hypothesis | C01+C04 |
| C06 | derived deserialization | false: witness (`_refuted`); round trip part proved |
| C07 | rule = list of pairs, all views as iterators | drain the state machines |
| C08 | slice-iterator / IntoIter state machines | simulation with a list deque, induction on op sequences |
| C09 | `Range<u32>`+`Map` state machine | simulation; exactness of `u32 -> f64` by Flocq |
| C10 | all constructors with overflow semantics | lengths; `usize::MAX` case for Legendre/Chebyshev refuted (release: empty rule, debug: panic) |
| C11 | table lookups in `Res` | arithmetic on indices, computed table lengths |
| C12 | golub_welsch with arbitrary eigen output | sort spec; Jacobi odd degree refuted |
| C13 | integrate with stateful integrand | induction on ranges |
| C14-C16 | R instance | closed forms of power sums |
| C17-C19 | R instance, Coquelicot integrals | Taylor/Peano-kernel argument per panel, sum over panels |
| C20 | R instance | uniform continuity on [a,b] |
| C21 | R instance | linearity of folds, index reversal |
| C22 | R and F64 instance | monotone rounding; refuted corner cases by computation |
| C23 | histories of change_degree | induction |
| C24 | integrate over list of pairs, stateful integrand | induction |
| C25 | R instance | polynomial substitution, Coquelicot change of variable |
| C26 | splitting trees, R instance | induction on the tree |
| C27 | splitting trees, F64 instance | standard error analysis, induction on the tree |
| C28 | splitting trees, any instance | induction on the tree |
| C29-C31 | R instance | trigonometric sums, substitution x = cos t |
| C32 | golub_welsch loop with bounds-checked updates | loop invariant |
| C33 | R instance, eigen oracle exact | orthonormal polynomials evaluated at eigenvalues |
| C34-C36 | C33 + orthogonality of the concrete recurrences | Pearson equation / integration by parts, Gaussian integral; Jacobi odd unsymmetric degree refuted |
| C37 | F64 instance | refuted at alpha+beta=-1 by computation |
| C38 | F64 instance | case analysis |
| C39 | R instance | algebra |
| C40 | R instance | positive-definite factorisations |
| C41, C42 | R instance | table computation + analysis for n > 100 |
| C43 | tables as exact decimals, verified fixed-point cosine | certified computation in Z |
| C44, C45 | R instance of `gamma` | algebra; partial fractions positivity |
| C46 | nested stateful integrate | induction |
| C47-C49 | F64 instance | Flocq |
| C50 | R instance of `gamma`, Euler's integral | the logarithmic defect of the functional equation is bounded by a polynomial sign check, telescoped to infinity with Bohr-Mollerup style growth bounds; reflection formula proved |
| C51 | F64 instance | `Bcompare_correct` |
| C52 | C43 + Chebyshev expansion | Chebyshev moments of the tables checked in fixed point |
| C53 | F64 instance | standard error analysis over sequential and parallel sums |
| C54 | R instance | Hermite interpolation (Rolle), exactness, norm of the monic orthogonal polynomial |
| C55 | R instance | Bernstein polynomials with explicit modulus, positivity of the weights, exactness |
| C56 | R instance | squared node polynomial |
| C57 | derived visitors over serde documents, any arithmetic | slot invariant by induction over the map entries |
| C58 | F64 instance, Flocq bit encoding | digits of a 64-bit word |
| C59 | error types, parser as oracle | case analysis |
| C60 | as C57 | NonZeroU32 decoder; witnesses for the node-weight rules |
| C61-C63 | R instance | panel sums; panels of convex and monotone functions; C20 is also proved for all Riemann integrable functions (Riemann sums) |
| C64 | R instance, `exact_on` | positivity and exactness on polynomials give convergence on x^j exp(-kx/2) (Taylor expansion of the exponential, growth of the moments), then Bernstein polynomials in exp(-x/2); Hermite by its even part |
| C65 | R instance | every weight is pi/(n+1/2) sin(theta) up to a summable error (Bessel expansions bounded term by term), then comparison with the Riemann sum over the cells [cos((i+1)pi/n), cos(i pi/n)] |
| C66 | R instance, `inexact_on` | the vectors J^j e0 computed through the approximate eigenpairs differ from the true ones by at most rho and phi times powers of the row sums; nodes by expanding an eigenvector of the exact matrix (the spectral theorem of C35's existence proof) |
| C67 | `F64`, `float_solver` | entries of the matrix and weights bounded by rounding lemmas, then C66 with rho enlarged, then C27 for the sum; for Jacobi the entries have relative error 18 u/dl and the zeros of the orthogonal polynomial lie in [-1,1] |
| C68 | `F64`, `quadrature`, `par_run` | each result is one expression of the values with either the sequential sum or a tree of partial sums; both kinds of sum keep NaN and are finite only on finite terms; sums of zeros are the zero whose sign is the conjunction of the signs |
| C69 | `F64`, `plain_interval`, `computes` | computed points are inside [a,b] and within 2^-50 (abs a + abs b) of the exact ones (C22 lemmas), Lipschitz condition, rounding of the sum (C53), then C17-C19 |
| C70 | AccF64.v, ChebFloat.v, LegFloat.v; AccCount.v, LegBigPoly.v, LegBigFloat.v, LegBigRule.v (degrees above 100) over Chebyshev.v, Legendre.v and F64 | relative error of every operation of the constructors, composed; all table entries checked against their decimal values by the kernel |
| C71 | GaussFloat.v, GaussFloatRules.v over C70 and C27 | error of the points, of the values and of the weighted sum, then C54 or C52 for the distance to the integral |
| C72 | integrate/par_integrate over binary64 (Flocq), sizes in FinSpec.v | induction over the summation order: every partial sum is at most (1+u)^n times the sum of absolute values, hence below the overflow threshold; point and weight bounds from C70 for constructed rules |
| C73 | the constructors over F64 with an abstract math library | angle errors against gaps of exact angles, cosine gap; table check of the 100 tabulated rules; total_cmp agrees with the order of values |
| C74 | gamma and the scale factors over F64, with an abstract math library (GamFloatSpec.v) | rounding-error counts through the partial fraction sum (cancellation factor 5117), the power and the products; log-convexity for the rounded arguments; C50 for the approximation itself |
| C75 | as C74 | size bounds for gamma and the products; for the refutations the overflowing power and product, infinity propagates to every weight |
| C76 | R instance; Legendre polynomials by their recurrence, the Bessel function J0 as a power series (Bessel.v) | sqrt(sin theta) P_n(cos theta) and a phase-amplitude ansatz built from J0 and the coefficients in the code satisfy nearly the same differential equation (residual bounded by Taylor models, TM.v; comparison by energy estimates, Ode.v and BogCmp.v), so zeros and slopes agree; the tabulated zeros of J0 are checked by its power series, the expansion beyond the table by the same argument for Bessel's equation (McMahon.v); nodes are matched with the zeros of P_n by separation and counting; Bernstein's inequality (Bern.v) for polynomials |
| C77 | F64 instance with an arbitrary backend, R instance | triangle inequality between the double rule, the real-arithmetic rule and the Gauss rule (BogFloat.v); interpolation at Chebyshev nodes and Bernstein polynomials as in C54, C55 |
| C78 | R instance, F64 instance with an arbitrary backend; the tables of data.rs digit for digit | the Legendre recurrence at cosine of the tabulated angle in 63-bit fixed point with proved error (LegZero.v, LegZeroAp.v), second-order Taylor bound of P_n(cos) and Newton step give a root near each entry, Christoffel weight at that root (LegZeroPair.v), roots counted against the n nodes (LegZeroRule.v) |
| C79 | R instance | Hermite interpolation at the nodes with a mean-value remainder for every point (GaussSide.v), integrated against the nonnegative weight; for Legendre first for the exact rule, whose nodal polynomial is the monic Legendre polynomial, then C76 and C78 (LegSide.v) |
| C80 | R instance | the eigenvalues of the reflected matrix are the negated ones and the first components of unit eigenvectors agree up to sign (Mirror.v); the middle node stays in the middle; values by reordering sums |
| C81 | R instance | truncate the expansion at degree 2n-1 and apply the best-approximation bounds behind C55, C52 and C76 (Geometric.v); uniform limits give continuity and hence existence of the integral |
| C82 | R instance, eigenvalue routine quantified | the spectral theorem fixes nodes and squared first components (GWRoots.v); a rule exact to degree 2n-1 is unique (Delegate.v), so the general path is the Chebyshev rule resp. the Gauss rule of C78 up to the total mass |
| C83 | double instance, all rules as one [quadrature] type | extended values: every operation of integrate is a rounded operation on reals with infinities far out, odd in the integrand's values; lifted by one relational induction over the sums and schedules (Order.v, OrderUse.v) |
| C84 | double instance, all rules as one [quadrature] type | rounding and overflow are monotone on extended values; same relational induction as C83 |
| C85 | exact-arithmetic instance of new and integrate | polynomial majorants of steps of degree 2n-2 by Hermite-type interpolation and a sign count of zeros of the derivative (StepPoly.v), summed over the nodes (MonoRule.v); Legendre: exact Gauss rule plus a shift of the integrand by the node error (MonoLeg.v), weights <= 4/n from the tables and the asymptotic formula (LegWeight.v) |
| C86 | exact-arithmetic instance of new and integrate | step functions are combinations of monotone jumps, for which C85 gives an error of order 1/n; Riemann-integrable functions lie between step functions with close integrals (RieStep.v, RieLeg.v); angle identities by rewriting the nodes (AngleRule.v), limits from C20's Newton-Cotes convergence |
| C87 | exact-arithmetic instance of new and integrate with an exact solver | upper and lower bounds by induction along the three-term recurrence (the polynomials have no zero outside), outermost nodes by Rayleigh quotients of the orthogonal polynomials, which the rule integrates exactly (NodeRange.v) |
| C88 | exact-arithmetic instance of new and integrate | Kx+f and Kx-f are monotone and Gauss rules integrate x exactly, so C85's bound applies to both (LipRule.v); nearby exact rule for Legendre, cell-by-cell comparison for Newton-Cotes (LipLeg.v) |
| C89 | exact-arithmetic instance of new | the Wronskian of neighbouring polynomials of the recurrence is positive, so their quotient is increasing and vanishes at most once between zeros of the denominator; counting fixes the positions (Interlace.v); comparison of angles for Chebyshev and the Legendre tables |
| C90 | double-precision instance of integrate, par_integrate of all rules | rounding to 53 digits commutes with powers of two; every intermediate result is a multiple of a power of two above 2^-1074, so subnormal rounding agrees with it; induction over the rule and the reduction tree (Scale.v, ScaleVar.v) |
| C91 | exact-arithmetic instance of new and integrate | Jordan decomposition by suprema of variation sums; monotone functions are uniform limits of staircases, hence integrable, also against the weights over unbounded domains; C62 and C85 on both parts (Jordan.v, MonoInt.v, VarRule.v) |
| C92 | exact-arithmetic instance of new and integrate; doubles for the witness | uniqueness of the sorted Gauss rule under reflection of the Jacobi matrix; pairing of opposite nodes; C80/C82 for Newton-Cotes (Parity.v, ParEx.v) |
| C93 | exact-arithmetic instance of the Newton-Cotes integrate functions | sums of cosines over equally spaced angles vanish; uniform limits; geometric tails (Trig.v, Fourier.v, FourierEx.v) |
| C94 | exact-arithmetic instance of the Newton-Cotes integrate functions | one-cell error against the Taylor polynomial with the derivative frozen at the middle of the cell, sum over cells is a midpoint sum of the highest derivative (Lead.v, LeadUse.v) |
| C95 | exact-arithmetic instance of nested integrate calls | substitution to the unit interval, uniform continuity on rectangles, continuity of the inner integral, positivity of the outer weights (DoubleInt.v); C65 for both Gauss-Legendre rules (DoubleLeg.v) |
| C96 | double-arithmetic instance of nested integrate and par_integrate calls | C69 for both levels, C72 for finiteness of the inner results, C88 for the discretisation errors (DoubleFloat.v, RegionFloat.v) |
| C97 | double-arithmetic and exact-arithmetic instances of all integrate functions | C83 and C84 for the triangle inequality in doubles; positive linear functionals, supporting lines of convex functions (Ineq.v) |
| C98 | exact-arithmetic instances of the Hermite and Laguerre rules | truncation of f, C64 for the bounded part, the one-sided bounds of C79 for the exponential majorant of the tail (ExpConv.v) |
| C99 | exact-arithmetic instances of the Chebyshev and Jacobi rules | truncation of f near the end points, C55 for the bounded part, the one-sided bounds of C79 for the majorant (1-x)^-k + (1+x)^-l (Singular.v) |

## 4. Trusted base

* Coq's kernel including `vm_compute` (used for closed boolean computations:
  float witnesses, table checks, the polynomial check of C50).
* The standard library's axioms that `Print Assumptions` lists. ASSUMPTIONS.md
  (generated by `tools/assumptions.py`) gives the list for every property
  theorem. In short: structural theorems (C07, C08, C10-C13, C24, C28, ...) are
  closed; theorems about reals use `sig_not_dec`, `sig_forall_dec`,
  `functional_extensionality_dep` and `classic`; the theorems that rest on the
  check of the Legendre tables (C43, C52, C78, C46 for Legendre, the Legendre part
  of C54, C55 and C71) also use the standard library's primitive 63-bit integers
  (`PrimInt63`) and their specification axioms (`Uint63`).
* No axioms, functors or module types of our own; the oracles of section 1 are
  arguments, and each theorem states what it assumes of them.
* The reading of the Rust source recorded in the comments of the model files,
  and the semantics of std/rayon summarised in section 1:
  * `Iterator::sum` for `f64` starts from -0.0;
  * rayon's `sum` adds per-leaf sums along some binary tree and may add the
    identity anywhere; indexed `collect` keeps the order;
  * `sort_unstable_by` returns an ordered permutation when the comparator is a
    total order on the elements;
  * `symmetric_eigen` is only ever assumed to be exact (R instance) or
    arbitrary (F64 instance); no theorem claims anything about its rounding;
  * sizes: theorems about Legendre rules assume 2n <= usize::MAX, which every
    rule that fits into memory satisfies (16 bytes per pair).

## 5. What is modelled, file by file

| file | modelled | not modelled |
|---|---|---|
| src/data_api.rs | parameter type (constructors, arithmetic, conversions, parsing with oracle, comparison), all iterators and accessors, derived serde, error types with text and source, zerocopy bytes | `Debug`, rkyv |
| src/math.rs | `gamma` with its two branches and constants; `sin cos pow` as oracles (F64) or true functions (R); `sqrt` | inside of std/libm |
| src/golub_welsch.rs | all | inside of nalgebra |
| src/midpoint, trapezoid, simpson | all of `new`, `degree`, `change_degree`, `From`, `integrate`, `par_integrate` | |
| src/chebyshev, hermite, laguerre, legendre, jacobi | constructors, `integrate`, `par_integrate`, parameter access, conversions | |
| src/legendre/bogaert | tables (as exact decimals), `ThetaWeightPair`, `tabulated`, `compute` | |
| src/lib.rs | documentation example of double integrals (C46) | |

## 6. Deviations and defects found

Each is a theorem with a witness (`_refuted`) or is stated in a theorem:

1. Jacobi rules of odd degree >= 3 with alpha <> beta overwrite the middle node
   with 0: they are not Gauss rules (C36), and the nodes may be out of order
   (C12, alpha=42, beta=0, n=3).
2. Jacobi with alpha+beta = -1 computes 0/0: NaN matrix entries (C37). Very
   large parameters overflow to NaN.
3. Degree `usize::MAX`: Legendre/Chebyshev panic in debug builds and return an
   empty rule in release builds (C10, C11).
4. Deserializing a `FiniteAboveNegOneF64` does not validate: invalid values get
   in (C06). Likewise node-weight rules accept empty node lists (C60).
5. The reflection branch of `gamma` is taken for x < 0.5 and the formula
   Gamma(x) Gamma(1-x) = pi/sin(pi x) therefore fails at x = 1/2 itself (C44).
6. `gamma` does not have the documented 16 digits (C50): error above 1e-13 at
   x=50; it is below 1.2e-13 everywhere.
7. In double arithmetic the integrand can be called outside [a,b] (C22): for
   subnormal intervals and near overflow (Newton-Cotes), and for nodes next to
   the end points (Gauss).
8. `gamma` overflow makes Laguerre/Jacobi weights infinite or NaN (C47-C49 state
   the finite cases).
9. `Jacobi::new(-0.0, 0.0)` delegates to Legendre; `alpha()` is +0.0 (C38).
10. Legendre: the middle node of odd rules with n > 100 is cos of a computed
    angle and not exactly 0 (C41).
11. From 2^30 points on the two largest Legendre and Chebyshev nodes are both
    equal to 1.0 in double arithmetic, even with correctly rounded cosines (C73).
12. Weights overflow although the integral of the weight function is a double
    (C75): GaussLaguerre::new(n, 169.0), whose integral is 169!, and
    GaussJacobi::new(n, 160.0, 0.0) for even n, whose integral is 2^161/161.

## 7. Testing the theorems

seeded/LOG.jsonl records edits of the model (in a scratch copy) that mimic
realistic bugs, with the theorems that stopped compiling, and where a surviving
mutant led to a stronger theorem.
In twelve runs (L2-9, L3-8, C3-2, N3-4, L3-1, L3-5, N3-1, D4-1, F3-1, B4-3,
B4-4, E8-2) coqc stopped on one file without an error message, very probably at
the time limit of the run. The theorems that depend on that file were not
checked there, so these lines list only the theorems seen to fail. Four of
them (L3-8, L3-5, B4-3, E8-2) list none and are inconclusive.
