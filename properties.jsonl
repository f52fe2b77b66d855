{"id": "C01", "title": "FiniteAboveNegOneF64::new accepts exactly the finite values above -1", "statement": "FiniteAboveNegOneF64::new(v) returns Some exactly when v is a finite f64 (not NaN, not infinite) whose value is strictly greater than -1; the returned wrapper's get() is v itself, bit for bit (signed zeros and subnormals included). Otherwise it returns None.", "quantifier": "every f64 bit pattern v, including all NaNs, both infinities, both zeros and all subnormals", "why_tests_cant": "There are 2^64 inputs; the unit tests try six of them.", "anchors": ["src/data_api.rs: FiniteAboveNegOneF64::new, get"]}
{"id": "C02", "title": "A FiniteAboveNegOneF64 obtained through the arithmetic API is always finite and above -1", "statement": "Start from Default::default(), new, try_from or str::parse and apply any sequence of checked_add / checked_sub / checked_mul / checked_div / checked_pow calls with arbitrary f64 arguments: every wrapper value that ever comes into existence has a finite inner value strictly above -1.", "quantifier": "every finite history of constructor and checked_* calls with every f64 argument, and every behaviour of the math backend's pow", "why_tests_cant": "It is an invariant over unbounded histories and over all arguments.", "anchors": ["src/data_api.rs: FiniteAboveNegOneF64, checked_add, checked_sub, checked_mul, checked_div, checked_pow, Default"]}
{"id": "C03", "title": "checked_add/sub/mul/div/pow are the correctly rounded result or None", "statement": "x.checked_op(y) is Some(r) exactly when y is such that the IEEE-754 round-to-nearest-even result of x op y is finite and > -1, and then r.get() is that correctly rounded result; overflow, NaN, division by zero and results <= -1 give None. x.checked_pow(y) is Some(r) exactly when the math library's x^y is finite and > -1, and then r.get() is that value.", "quantifier": "every valid wrapper x, every f64 y, the five operations", "why_tests_cant": "Unbounded pairs of doubles; rounding and overflow boundaries cannot be enumerated.", "anchors": ["src/data_api.rs: checked_add, checked_sub, checked_mul, checked_div, checked_pow"]}
{"id": "C04", "title": "TryFrom and FromStr classify failures correctly", "statement": "try_from(v) is Ok exactly when new(v) is Some (same value), else Err(InfNanNegOneOrLessError). parse(s) returns Err(ParseError(e)) exactly when f64 parsing of s fails with e, Err(InvalidValue) exactly when s parses to a value that is NaN, infinite or <= -1, and Ok of the parsed value otherwise. Conversions to f64 (From/Into, get) return the inner value.", "quantifier": "every f64, every string, every behaviour of the standard f64 parser", "why_tests_cant": "All strings / all doubles.", "anchors": ["src/data_api.rs: TryFrom<f64>, From<FiniteAboveNegOneF64> for f64, FromStr, ParseFiniteAboveNegOneF64Error"]}
{"id": "C05", "title": "Display followed by FromStr gives back the same parameter", "statement": "For every parameter value x that the API can create, formatting it (Display, LowerExp or UpperExp) and parsing the text again yields Ok(x) with the identical bits, given that the standard library's f64 formatting/parsing round-trips.", "quantifier": "every valid wrapper value", "why_tests_cant": "All doubles above -1.", "anchors": ["src/data_api.rs: Display, LowerExp, UpperExp, FromStr"]}
{"id": "C06", "title": "Deserialized parameters satisfy the wrapper's guarantee", "statement": "The type documents that it ensures its value is finite and above -1. With the serde/rkyv features, a value obtained by deserialization should satisfy this too, and deserialize(serialize(x)) should be x.", "quantifier": "every f64 that an input document may contain", "why_tests_cant": "All documents; the crate has no deserialization test at all.", "anchors": ["src/data_api.rs: #[derive(serde::Deserialize, rkyv::Deserialize)] on FiniteAboveNegOneF64"]}
{"id": "C07", "title": "All views of a rule show the same node-weight pairs in the same order", "statement": "For every Gauss rule value: iter(), (&rule).into_iter(), rule.into_iter(), as_node_weight_pairs(), into_node_weight_pairs() present the same pairs in the same order, nodes() and weights() are their first and second components in that order, and degree() is their number.", "quantifier": "every rule of every kind and degree", "why_tests_cant": "All rules and contents.", "anchors": ["src/data_api.rs: __impl_node_weight_rule!"]}
{"id": "C08", "title": "Rule iterators behave like a double-ended queue under every interleaving of calls", "statement": "For the iterators returned by iter(), nodes(), weights(), into_iter() of Gauss rules: after any sequence of next, next_back, nth(k), nth_back(k) calls, each returned item, size_hint(), len(), as_slice()/as_ref() and a final count()/last() are exactly those of a list from which elements are removed at the front / back; every element is delivered at most once, nothing is delivered after exhaustion (fused).", "quantifier": "every underlying data, every finite sequence of calls with every index argument", "why_tests_cant": "Sequences of calls and index arguments are unbounded.", "anchors": ["src/data_api.rs: __impl_slice_iterator_newtype_traits!, __impl_node_weight_rule!"]}
{"id": "C09", "title": "Newton-Cotes rule iterators yield 0, 1, ..., degree-1 exactly", "statement": "iter()/into_iter() of Midpoint, Simpson and Trapezoid deliver exactly the doubles 0.0, 1.0, ..., degree-1 (each conversion exact) and behave like a double-ended queue of these under any interleaving of next/next_back/nth/nth_back/len/size_hint/count/last.", "quantifier": "every NonZeroU32 degree, every call sequence", "why_tests_cant": "2^32 degrees times unbounded call sequences.", "anchors": ["src/data_api.rs: __impl_node_rule!"]}
{"id": "C10", "title": "A Gauss rule has exactly the requested number of nodes", "statement": "For every constructor (GaussLegendre, GaussChebyshevFirstKind/SecondKind, GaussHermite, GaussLaguerre, GaussJacobi; sequential or parallel) rule.degree() equals the degree passed to new.", "quantifier": "every NonZeroUsize degree and all parameters, debug and release overflow semantics", "why_tests_cant": "All degrees up to usize::MAX cannot be constructed in a test.", "anchors": ["src/legendre/mod.rs: GaussLegendre::new, par_new", "src/chebyshev/mod.rs: new, par_new", "src/golub_welsch.rs: golub_welsch", "src/jacobi/mod.rs: GaussJacobi::new"]}
{"id": "C11", "title": "Building a Gauss-Legendre rule never indexes out of bounds or underflows", "statement": "GaussLegendre::new(n) never panics: every table lookup and every usize subtraction for every node index is in range.", "quantifier": "every degree n below usize::MAX/2 and every node index", "why_tests_cant": "All n and all k; the branch structure (tables for n <= 100, Bessel tables for k <= 20/21, reflection) has boundary cases per n.", "anchors": ["src/legendre/bogaert/mod.rs: ThetaWeightPair::new, tabulated_pair, compute_pair, bessel_j0_zero, bessel_j1_squared", "src/legendre/bogaert/data.rs"]}
{"id": "C12", "title": "Gauss rules store their pairs sorted by node", "statement": "The pairs of every Gauss rule are in ascending order of node according to f64::total_cmp, and sorting never separates a node from its weight (the stored pairs are a permutation of eigenvalue / scaled squared first eigenvector component pairs).", "quantifier": "every degree, every parameter, every output of the eigenvalue solver (even NaN)", "why_tests_cant": "All degrees and parameters; tests step through even degrees only.", "anchors": ["src/golub_welsch.rs: golub_welsch", "src/jacobi/mod.rs: GaussJacobi::new", "CHANGELOG.md 0.3.0"]}
{"id": "C13", "title": "Newton-Cotes integrate calls the integrand at exactly the documented points", "statement": "Midpoint::integrate calls the (possibly stateful) integrand exactly n times, at a+h(i+1/2) for i=0..n-1 in this order, h=(b-a)/n, and returns h times the sum. Trapezoid calls it n+1 times (a, b, then a+ih for i=1..n-1) and returns h((f(a)+f(b))/2 + sum). Simpson calls it 2n+1 times (inner edges, inner midpoints, last midpoint, a, b) and returns h/6(2*edges+4*midpoints+f(a)+f(b)). The integrand's internal state is threaded through the calls in this order.", "quantifier": "every degree, all bounds, every stateful integrand", "why_tests_cant": "FnMut closures and degrees are unbounded.", "anchors": ["src/midpoint/mod.rs: integrate", "src/trapezoid/mod.rs: integrate", "src/simpson/mod.rs: integrate"]}
{"id": "C14", "title": "Midpoint rule is exact on affine functions", "statement": "In exact arithmetic Midpoint::integrate(a,b,f) equals the integral of f over [a,b] for every f(x)=c0+c1 x.", "quantifier": "every degree n, all a, b, all coefficients", "why_tests_cant": "Infinite families.", "anchors": ["src/midpoint/mod.rs: integrate"]}
{"id": "C15", "title": "Trapezoid rule is exact on affine functions", "statement": "In exact arithmetic Trapezoid::integrate(a,b,f) equals the integral of f over [a,b] for every f(x)=c0+c1 x.", "quantifier": "every degree n, all a, b, all coefficients", "why_tests_cant": "Infinite families.", "anchors": ["src/trapezoid/mod.rs: integrate"]}
{"id": "C16", "title": "Simpson rule is exact on cubics", "statement": "In exact arithmetic Simpson::integrate(a,b,f) equals the integral of f over [a,b] for every polynomial f of degree at most 3.", "quantifier": "every degree n, all a, b, all coefficients", "why_tests_cant": "Infinite families.", "anchors": ["src/simpson/mod.rs: integrate"]}
{"id": "C17", "title": "Midpoint rule error bound", "statement": "If |f''| <= M on [a,b] then |Midpoint::integrate(a,b,f) - integral| <= M (b-a)^3 / (24 n^2) in exact arithmetic.", "quantifier": "every twice continuously differentiable f, all a<=b, every n", "why_tests_cant": "Quantifies over functions.", "anchors": ["src/midpoint/mod.rs: integrate"]}
{"id": "C18", "title": "Trapezoid rule error bound", "statement": "If |f''| <= M on [a,b] then |Trapezoid::integrate(a,b,f) - integral| <= M (b-a)^3 / (12 n^2) in exact arithmetic.", "quantifier": "every twice continuously differentiable f, all a<=b, every n", "why_tests_cant": "Quantifies over functions.", "anchors": ["src/trapezoid/mod.rs: integrate"]}
{"id": "C19", "title": "Simpson rule error bound", "statement": "If |f''''| <= M on [a,b] then |Simpson::integrate(a,b,f) - integral| <= M (b-a)^5 / (2880 n^4) in exact arithmetic.", "quantifier": "every four times continuously differentiable f, all a<=b, every n", "why_tests_cant": "Quantifies over functions.", "anchors": ["src/simpson/mod.rs: integrate"]}
{"id": "C20", "title": "Newton-Cotes rules converge to the integral as the degree grows", "statement": "For every continuous integrand the exact-arithmetic values of Midpoint, Trapezoid and Simpson tend to the integral over [a,b] as the degree tends to infinity.", "quantifier": "every continuous f, all a<=b", "why_tests_cant": "A limit statement over all functions.", "anchors": ["src/midpoint/mod.rs", "src/trapezoid/mod.rs", "src/simpson/mod.rs"]}
{"id": "C21", "title": "integrate is linear in the integrand and antisymmetric in the bounds", "statement": "In exact arithmetic integrate(a,b,c*f+d*g) = c*integrate(a,b,f)+d*integrate(a,b,g) for every rule; for Midpoint, Trapezoid, Simpson and every symmetric Gauss rule integrate(b,a,f) = -integrate(a,b,f); integrate(a,a,f)=0.", "quantifier": "all integrands, bounds, degrees, rules", "why_tests_cant": "Quantifies over functions and rules.", "anchors": ["src/midpoint/mod.rs", "src/trapezoid/mod.rs", "src/simpson/mod.rs", "src/legendre/mod.rs: integrate", "src/chebyshev/mod.rs: integrate"]}
{"id": "C22", "title": "The integrand is only evaluated inside the integration interval", "statement": "Every point at which a Newton-Cotes rule, or a Gauss rule with nodes in [-1,1], evaluates the integrand lies between a and b - in exact arithmetic, and (where it is true) also in IEEE double arithmetic.", "quantifier": "all bounds, degrees, nodes", "why_tests_cant": "All doubles; the failing corner cases (subnormal widths, intervals a few ulps wide) are invisible to sampling.", "anchors": ["src/midpoint/mod.rs: integrate", "src/trapezoid/mod.rs: integrate", "src/simpson/mod.rs: integrate", "src/legendre/mod.rs: argument_transformation"]}
{"id": "C23", "title": "change_degree and From leave no trace of the rule's past", "statement": "After any sequence of change_degree calls a Midpoint/Simpson/Trapezoid rule is equal to, and integrates and iterates exactly like, a rule freshly built with the last degree; From<NonZeroU32> equals new; degree() is the last degree set.", "quantifier": "every history of change_degree calls", "why_tests_cant": "Unbounded histories.", "anchors": ["src/midpoint/mod.rs: change_degree, From", "src/simpson/mod.rs: change_degree, From", "src/trapezoid/mod.rs: change_degree, From"]}
{"id": "C24", "title": "Gauss integrate evaluates the integrand once per node, in node order, and returns the weighted sum", "statement": "integrate calls the (possibly stateful) integrand exactly degree() times, in stored order, at (b-a)/2*x+(a+b)/2 (Legendre, Jacobi, Chebyshev) or x itself (Laguerre, Hermite), and returns the (b-a)/2-scaled (resp. plain) sum of weight times value; the rule is not modified, so calls can be repeated with equal results.", "quantifier": "every rule, bounds, stateful integrand", "why_tests_cant": "FnMut closures, contents unbounded.", "anchors": ["src/legendre/mod.rs: integrate", "src/jacobi/mod.rs: integrate", "src/chebyshev/mod.rs: integrate", "src/laguerre/mod.rs: integrate", "src/hermite/mod.rs: integrate"]}
{"id": "C25", "title": "Exactness on [-1,1] carries over to every interval", "statement": "If a rule's pairs integrate all polynomials of degree <= d exactly on [-1,1] against a weight function w, then integrate(a,b,p) equals (in exact arithmetic) the integral over [a,b] of p(x) w(2(x-a)/(b-a)-1) for all polynomials p of degree <= d.", "quantifier": "all pairs, weight functionals, a, b, polynomials", "why_tests_cant": "Quantifies over rules and polynomials.", "anchors": ["src/legendre/mod.rs: argument_transformation, scale_factor", "src/jacobi/mod.rs", "src/chebyshev/mod.rs"]}
{"id": "C26", "title": "par_integrate equals integrate in exact arithmetic for every work-splitting", "statement": "For every rule (all Gauss rules, Midpoint, Trapezoid, Simpson) and every way the work-stealing scheduler may split the index range, par_integrate evaluates the integrand at exactly the same points, once each, and returns the same exact-arithmetic value as integrate.", "quantifier": "every schedule (splitting tree), rule, degree, bounds, integrand", "why_tests_cant": "Schedules are nondeterministic; tests see one of exponentially many.", "anchors": ["src/*/mod.rs: par_integrate"]}
{"id": "C27", "title": "Rounding error of integrate and par_integrate is bounded for every schedule", "statement": "In IEEE double arithmetic, if no operation overflows, the value summed by integrate or par_integrate differs from the exact weighted sum of the same integrand values by at most ((1+u)^(n+1)-1) * sum|w_i f_i| plus an underflow term, whatever the splitting; hence integrate and par_integrate differ by at most twice that.", "quantifier": "every rule contents, integrand values, schedule, n", "why_tests_cant": "All doubles and all schedules.", "anchors": ["src/hermite/mod.rs: integrate, par_integrate", "src/laguerre/mod.rs", "src/legendre/mod.rs", "src/jacobi/mod.rs", "src/chebyshev/mod.rs"]}
{"id": "C28", "title": "par_new builds the same rule as new, bit for bit, for every work-splitting", "statement": "GaussLegendre::par_new, GaussChebyshevFirstKind::par_new and GaussChebyshevSecondKind::par_new return the same pairs in the same order as new.", "quantifier": "every schedule, every degree, every math backend", "why_tests_cant": "Schedules are nondeterministic.", "anchors": ["src/legendre/mod.rs: par_new", "src/chebyshev/mod.rs: par_new"]}
{"id": "C29", "title": "Gauss-Chebyshev (first kind) of degree n integrates polynomials of degree <= 2n-1 exactly", "statement": "In exact arithmetic sum w_i p(x_i) = integral over (-1,1) of p(x)/sqrt(1-x^2) for all polynomials p of degree at most 2n-1.", "quantifier": "every n >= 1, every polynomial", "why_tests_cant": "Infinite families.", "anchors": ["src/chebyshev/mod.rs: GaussChebyshevFirstKind::new, integrate"]}
{"id": "C30", "title": "Gauss-Chebyshev (second kind) of degree n integrates polynomials of degree <= 2n-1 exactly", "statement": "In exact arithmetic sum w_i p(x_i) = integral over [-1,1] of p(x) sqrt(1-x^2) for all polynomials p of degree at most 2n-1.", "quantifier": "every n >= 1, every polynomial", "why_tests_cant": "Infinite families.", "anchors": ["src/chebyshev/mod.rs: GaussChebyshevSecondKind::new, integrate"]}
{"id": "C31", "title": "Chebyshev nodes are strictly ascending inside (-1,1), symmetric, with positive symmetric weights", "statement": "For both Chebyshev rules in exact arithmetic: nodes strictly increase with the index and lie strictly inside (-1,1), node i and node n+1-i are opposite with equal weights, all weights are positive and sum to pi resp. pi/2.", "quantifier": "every degree", "why_tests_cant": "All degrees.", "anchors": ["src/chebyshev/mod.rs: new"]}
{"id": "C32", "title": "The Golub-Welsch companion matrix is the symmetric tridiagonal matrix of the recurrence", "statement": "For every degree n and coefficient functions the matrix handed to the eigenvalue solver is n by n with diag(i) at (i,i) for i<n, off_diag(i) at (i,i+1) and (i+1,i) for i<n-1 and zero elsewhere; diag is called with 0..n-1 and off_diag with 0..n-2 only, and no index is out of bounds.", "quantifier": "every degree, every diag/off_diag", "why_tests_cant": "All degrees.", "anchors": ["src/golub_welsch.rs: golub_welsch"]}
{"id": "C33", "title": "Golub-Welsch yields a Gauss rule", "statement": "If the eigenvalue solver returns an exact orthonormal eigendecomposition, the resulting pairs integrate every polynomial of degree <= 2n-1 exactly with respect to any functional for which the recurrence's polynomials are orthogonal with total mass scale_factor; weights are positive (when scale_factor is), sum to scale_factor, and nodes are pairwise distinct.", "quantifier": "every n, recurrence coefficients, functional, eigendecomposition", "why_tests_cant": "Infinite families.", "anchors": ["src/golub_welsch.rs: golub_welsch"]}
{"id": "C34", "title": "Gauss-Hermite of degree n integrates polynomials of degree <= 2n-1 exactly", "statement": "With an exact eigensolver and exact arithmetic, GaussHermite::new(n).integrate(p) equals the integral over the real line of exp(-x^2) p(x) for all polynomials of degree at most 2n-1.", "quantifier": "every n, every polynomial, every exact eigendecomposition", "why_tests_cant": "Infinite families.", "anchors": ["src/hermite/mod.rs: new, integrate"]}
{"id": "C35", "title": "Gauss-Laguerre of degree n integrates polynomials of degree <= 2n-1 exactly up to the accuracy of gamma(alpha+1)", "statement": "With an exact eigensolver and exact arithmetic, GaussLaguerre::new(n,alpha).integrate(p) equals gamma(alpha+1)/Gamma(alpha+1) times the integral over (0,inf) of x^alpha exp(-x) p(x), for all polynomials of degree at most 2n-1, where gamma is the crate's approximation and Gamma the true function.", "quantifier": "every n, alpha > -1, polynomial, exact eigendecomposition", "why_tests_cant": "Infinite families.", "anchors": ["src/laguerre/mod.rs: new, integrate"]}
{"id": "C36", "title": "Gauss-Jacobi of degree n integrates polynomials of degree <= 2n-1 exactly", "statement": "GaussJacobi::new(n,alpha,beta).integrate(-1,1,p) equals (up to the factor by which the crate's gamma approximates the total mass) the integral of (1-x)^alpha (1+x)^beta p(x) over (-1,1) for all polynomials of degree at most 2n-1.", "quantifier": "every n, alpha, beta > -1, every polynomial, exact eigendecomposition", "why_tests_cant": "Infinite families; the tests' reference values for odd degrees even encode the defect.", "anchors": ["src/jacobi/mod.rs: GaussJacobi::new, integrate"]}
{"id": "C37", "title": "Gauss-Jacobi produces finite matrix entries and weights for every admissible parameter pair", "statement": "For all alpha, beta accepted by FiniteAboveNegOneF64 and every degree, the entries of the companion matrix and the scale factor computed in double arithmetic are not NaN (in particular when alpha+beta = -1).", "quantifier": "every admissible parameter pair and degree", "why_tests_cant": "All pairs of doubles; the exceptional set alpha+beta=-1 has measure zero.", "anchors": ["src/jacobi/mod.rs: GaussJacobi::new", "src/math.rs: gamma"]}
{"id": "C38", "title": "Jacobi delegates to Legendre/Chebyshev exactly for the three special parameter pairs and reports the parameters it was given", "statement": "GaussJacobi::new(n,alpha,beta) has bitwise the pairs of GaussLegendre::new(n) iff-case alpha=beta=0 (either sign of zero), of GaussChebyshevFirstKind::new(n) for -1/2,-1/2, of GaussChebyshevSecondKind::new(n) for 1/2,1/2; alpha() and beta() compare equal to the arguments in every case; the From conversions keep the pairs and set the matching parameters. GaussLaguerre::new(n,alpha).alpha() is alpha.", "quantifier": "every degree, every admissible parameter pair", "why_tests_cant": "All doubles.", "anchors": ["src/jacobi/mod.rs: GaussJacobi::new, alpha, beta, From<GaussLegendre>, From<GaussChebyshevFirstKind>, From<GaussChebyshevSecondKind>", "src/laguerre/mod.rs: GaussLaguerre::new, alpha"]}
{"id": "C39", "title": "Gauss-Jacobi of degree 1 is the exact one-point rule", "statement": "For degree 1 and every admissible alpha, beta (outside the delegated pairs) the single node is (beta-alpha)/(alpha+beta+2), which lies in (-1,1) and makes the rule exact on affine polynomials up to the accuracy of the weight.", "quantifier": "every admissible parameter pair", "why_tests_cant": "All pairs of reals.", "anchors": ["src/jacobi/mod.rs: GaussJacobi::new (deg 1)"]}
{"id": "C40", "title": "Nodes of Golub-Welsch rules lie in the interior of the domain of integration", "statement": "With an exact eigensolver: Gauss-Laguerre nodes are strictly positive, Gauss-Jacobi nodes (before the odd-degree correction) lie strictly in (-1,1), Gauss-Hermite nodes come in pairs of opposite sign; all are pairwise distinct and strictly ascending.", "quantifier": "every n, alpha, beta", "why_tests_cant": "Infinite families.", "anchors": ["src/laguerre/mod.rs", "src/jacobi/mod.rs", "src/hermite/mod.rs", "src/golub_welsch.rs"]}
{"id": "C41", "title": "Gauss-Legendre pairs are mirror images of each other", "statement": "For every n, pair n+1-k has the same weight as pair k bit for bit, and its angle is PI minus the other angle, so in exact arithmetic the nodes are opposite; the middle node of an odd tabulated rule is cos(PI/2).", "quantifier": "every n >= 2, every k", "why_tests_cant": "All n and k.", "anchors": ["src/legendre/bogaert/mod.rs: ThetaWeightPair::new, tabulated_pair, NodeWeightPair::new"]}
{"id": "C42", "title": "Gauss-Legendre nodes are strictly ascending inside (-1,1) and the weights are positive", "statement": "In exact arithmetic the stored nodes strictly increase, lie strictly in (-1,1), and all weights are positive.", "quantifier": "every degree n", "why_tests_cant": "All n; tests sample 20 degrees.", "anchors": ["src/legendre/mod.rs: new", "src/legendre/bogaert/mod.rs", "src/legendre/bogaert/data.rs"]}
{"id": "C43", "title": "Tabulated Gauss-Legendre rules integrate polynomials of degree <= 2n-1 to double precision", "statement": "For n <= 100, with the tables' values and exact cosine, |sum w_i p(x_i) - integral of p over [-1,1]| <= 1e-14 * (sum of |coefficients of p|) for every polynomial p of degree at most 2n-1.", "quantifier": "every n in 1..100, every polynomial of degree <= 2n-1", "why_tests_cant": "All polynomials; 5000 table entries, each of which could contain a typo that the crate's tests (which look at degrees 3 and 5) would not notice.", "anchors": ["src/legendre/bogaert/data.rs", "src/legendre/bogaert/mod.rs: tabulated_pair"]}
{"id": "C44", "title": "gamma satisfies Euler's reflection formula", "statement": "In exact arithmetic gamma(x)*gamma(1-x) = PI/sin(PI*x) for every non-integer x.", "quantifier": "every non-integer real x", "why_tests_cant": "All reals.", "anchors": ["src/math.rs: gamma"]}
{"id": "C45", "title": "gamma is positive on positive arguments and negative on (-1,0)", "statement": "In exact arithmetic gamma(x) > 0 for x > 0 and gamma(x) < 0 for -1 < x < 0, so the weights scale factors of Laguerre and Jacobi rules are positive.", "quantifier": "every real x in these ranges", "why_tests_cant": "All reals.", "anchors": ["src/math.rs: gamma", "src/laguerre/mod.rs: new", "src/jacobi/mod.rs: new"]}
{"id": "C46", "title": "Nested integrals are iterated sums and are exact on products", "statement": "rule.integrate(a,b,|x| rule2.integrate(c(x),d(x),|y| f(x,y))) evaluates f exactly degree*degree2 times and equals the iterated weighted sum; in exact arithmetic, nesting exact rules integrates polynomials in two variables exactly.", "quantifier": "all rules, bounds functions, integrands", "why_tests_cant": "Quantifies over functions.", "anchors": ["src/lib.rs: Double integrals", "README.md"]}
{"id": "C47", "title": "A degenerate interval integrates to zero", "statement": "In double arithmetic, for finite a, if the integrand returns finite values whose weighted sum does not overflow then integrate(a,a,f) is zero for every rule.", "quantifier": "every finite a, every rule, every integrand", "why_tests_cant": "All doubles.", "anchors": ["src/*/mod.rs: integrate"]}
{"id": "C48", "title": "A clone equals the original exactly when no NaN is stored", "statement": "rule == rule.clone() holds iff no node, weight or parameter is NaN; equality of rules is IEEE equality of all nodes and weights (and parameters) position by position.", "quantifier": "every rule contents", "why_tests_cant": "All contents.", "anchors": ["src/legendre/mod.rs: derive(PartialEq, Clone)", "src/jacobi/mod.rs", "src/laguerre/mod.rs"]}
{"id": "C49", "title": "A non-negative integrand has a non-negative integral", "statement": "In double arithmetic, if a <= b, all weights are non-negative and the integrand returns non-negative numbers (or +inf), no rule returns a negative number.", "quantifier": "all rules with non-negative weights, bounds, integrands", "why_tests_cant": "All doubles.", "anchors": ["src/*/mod.rs: integrate"]}
{"id": "C50", "title": "gamma approximates the Gamma function", "statement": "The crate's gamma(x) (documented accurate to 16 digits) agrees with the true Gamma function to a small relative error in exact arithmetic.", "quantifier": "every real x > 0 (up to the overflow threshold)", "why_tests_cant": "A continuum of arguments; tests probe about 25.", "anchors": ["src/math.rs: gamma"]}
{"id": "C51", "title": "Parameters compare exactly like the numbers they hold", "statement": "For two valid FiniteAboveNegOneF64 values, == and partial_cmp agree with equality and order of the real numbers they hold; partial_cmp never returns None, so the parameters are totally ordered.", "quantifier": "every pair of valid parameters", "why_tests_cant": "All pairs of doubles, including the two zeros.", "anchors": ["src/data_api.rs: FiniteAboveNegOneF64 derive(PartialEq, PartialOrd)"]}
{"id": "C52", "title": "Error of tabulated Gauss-Legendre rules on any interval and integrand", "statement": "For n <= 100, in exact arithmetic with the tables' values, integrate over [a,b] differs from the integral of a polynomial p of degree <= 2n-1 by at most 3e-14 * max|p| * |b-a|/2; for any integrable f bounded by M and within E of such a polynomial on [a,b] the error is at most (3e-14*M + 5*E)*|b-a|/2.", "quantifier": "every n in 1..100, every interval, every integrand and approximating polynomial", "why_tests_cant": "All integrands, intervals and degrees.", "anchors": ["src/legendre/mod.rs: integrate", "src/legendre/bogaert/data.rs"]}
{"id": "C53", "title": "Rounding error of the midpoint, trapezoid and Simpson rules is bounded for every schedule", "statement": "In IEEE double arithmetic, whenever the result of integrate or par_integrate of a Newton-Cotes rule of degree n is finite, it differs from the exact combination of the same integrand values (times the rounded step) by at most about n 2^-53 times the same combination of absolute values, plus an underflow term, whatever the splitting.", "quantifier": "every n >= 1, bounds, integrand (stateful for integrate), schedule", "why_tests_cant": "All doubles, all degrees and all schedules.", "anchors": ["src/midpoint/mod.rs: integrate, par_integrate", "src/trapezoid/mod.rs: integrate, par_integrate", "src/simpson/mod.rs: integrate, par_integrate"]}
{"id": "C54", "title": "Classical error bound of the Gauss rules for smooth integrands", "statement": "In exact arithmetic, for an integrand whose 2n-th derivative is bounded by M, the value of an n-point Gauss rule differs from the weighted integral by at most M/(2n)! times the integral of the squared monic orthogonal polynomial: sqrt(pi) n!/2^n for Hermite, n! (alpha+1)...(alpha+n) Gamma(alpha+1) for Laguerre, the Jacobi norm, pi/2^(2n-1) and pi/2^(2n+1) for Chebyshev, scaled by (|b-a|/2)^(2n+1) on other intervals; for tabulated Legendre rules the bound holds up to a constant factor plus 3e-14 max|f|.", "quantifier": "every degree, every interval, every 2n times differentiable integrand", "why_tests_cant": "All smooth integrands, degrees and intervals.", "anchors": ["src/hermite/mod.rs: integrate", "src/laguerre/mod.rs: integrate", "src/jacobi/mod.rs: integrate", "src/chebyshev/mod.rs: integrate", "src/legendre/mod.rs: integrate"]}
{"id": "C55", "title": "Gauss rules on bounded intervals converge for every continuous integrand", "statement": "In exact arithmetic, for every continuous integrand on [a,b] the weighted integral exists and the values of the Gauss-Chebyshev rules (and Gauss-Jacobi rules of even degree or with alpha = beta) converge to it as the degree grows; the error is at most 2 * mass * |b-a|/2 * (1 + (b-a)^2/(4(2n-1)delta^2)) * omega when f varies by at most omega over distances up to delta; likewise for tabulated Legendre rules, plus 3e-14 max|f|.", "quantifier": "every continuous integrand, every interval, every degree", "why_tests_cant": "Convergence is a statement about all degrees and all continuous functions.", "anchors": ["src/chebyshev/mod.rs: integrate", "src/jacobi/mod.rs: integrate", "src/legendre/mod.rs: integrate"]}
{"id": "C56", "title": "The degree of exactness is exactly 2n-1", "statement": "For every Hermite, Laguerre, Chebyshev and Jacobi rule of degree n there is a polynomial of degree 2n with positive weighted integral for which the rule returns 0; with it the bounds of C54 hold with equality.", "quantifier": "every degree and every valid parameter", "why_tests_cant": "All degrees; a test shows the failure for one polynomial and one degree.", "anchors": ["src/hermite/mod.rs: integrate", "src/laguerre/mod.rs: integrate", "src/jacobi/mod.rs: integrate", "src/chebyshev/mod.rs: integrate"]}
{"id": "C57", "title": "Serialized rules come back unchanged, and exactly the documents that contain every field are accepted", "statement": "For every rule of every kind, deserializing its serialization gives the same rule bit for bit, both in formats that write structs as maps and in those that write them as sequences. A document is accepted exactly if it is a map that contains every field of the struct once (in any order, among any unknown fields) or a sequence that starts with the fields in order of declaration, with every field of the right type; the result has the contents the document denotes.", "quantifier": "every rule and every document of serde's data model, strict and lenient formats", "why_tests_cant": "The set of documents is infinite (order, unknown, missing and repeated keys, nesting, integer or float notation), and the crate has no serialization test.", "anchors": ["src/*/mod.rs: derive(serde::Serialize, serde::Deserialize) on the nine rule structs", "src/data_api.rs: derive(serde::Serialize, serde::Deserialize) on FiniteAboveNegOneF64"]}
{"id": "C58", "title": "The byte view of a parameter is faithful and the all-zero parameter is valid", "statement": "With the zerocopy feature, as_bytes of a FiniteAboveNegOneF64 has eight bytes that determine the value bit for bit; new_zeroed is the default parameter, its value is 0 and admissible, and it is the only parameter whose bytes are all zero.", "quantifier": "every parameter value and byte order", "why_tests_cant": "All 2^64 bit patterns.", "anchors": ["src/data_api.rs: derive(zerocopy::FromZeros, zerocopy::IntoBytes) on FiniteAboveNegOneF64"]}
{"id": "C59", "title": "Errors of parsing a parameter name their cause", "statement": "When parsing a string as a parameter fails, either the string is not a number, and then the error, its message and its source are the standard library's, or the number is not finite and above -1, and then the message says so and the source is InfNanNegOneOrLessError. An error with a source has the same message as its source, and the source has none.", "quantifier": "every string, for every behaviour of the standard library's parser", "why_tests_cant": "All strings and all parser results.", "anchors": ["src/data_api.rs: FromStr, Display and Error of ParseFiniteAboveNegOneF64Error and InfNanNegOneOrLessError"]}
{"id": "C60", "title": "Deserialized rules keep the guarantees of constructed ones", "statement": "A rule obtained by deserialization has at least one node, and parameters that are finite and above -1, like every rule made by a constructor.", "quantifier": "every document of serde's data model", "why_tests_cant": "All documents; validity is a property of code that is not there (derived deserialization does not call the constructors).", "anchors": ["src/*/mod.rs: derive(serde::Deserialize) on the rule structs", "src/{midpoint,trapezoid,simpson}/mod.rs: degree: NonZeroU32"]}
{"id": "C61", "title": "The Newton-Cotes rules fit together", "statement": "For every integrand, interval and degree n: Simpson's result is (2*midpoint + trapezoid)/3 of the same degree; the trapezoid rule of degree 2n is the mean of the trapezoid and midpoint rules of degree n; Simpson of degree n is the Richardson extrapolation of the trapezoid rules of degrees n and 2n; and each rule of degree k*n is the sum of the rules of degree n over k equal parts of the interval.", "quantifier": "every integrand, interval, n and k (exact arithmetic)", "why_tests_cant": "Identities between infinitely many rules and integrands.", "anchors": ["src/midpoint/mod.rs: integrate", "src/trapezoid/mod.rs: integrate", "src/simpson/mod.rs: integrate"]}
{"id": "C62", "title": "Newton-Cotes results bracket the integral of convex functions and are close for monotone ones", "statement": "For a convex integrand the midpoint rule is at most and the trapezoid rule at least the integral, doubling the degree of the trapezoid rule does not increase it, and Simpson's error is at most 2/3 of the gap. For a monotone integrand, continuous or not, the error of each rule is at most (b-a)|f(b)-f(a)|/(2n).", "quantifier": "every integrable convex or monotone integrand, interval and degree (exact arithmetic)", "why_tests_cant": "All integrands; no smoothness is assumed.", "anchors": ["src/midpoint/mod.rs: integrate", "src/trapezoid/mod.rs: integrate", "src/simpson/mod.rs: integrate"]}
{"id": "C63", "title": "The Newton-Cotes error bounds cannot be improved", "statement": "For every degree and interval the error of the midpoint and trapezoid rules on x^2 and of Simpson's rule on x^4 is exactly the bound of C17, C18 and C19. So the rules are exact on no larger space of polynomials.", "quantifier": "every degree and interval (exact arithmetic)", "why_tests_cant": "All degrees and intervals.", "anchors": ["src/midpoint/mod.rs: integrate", "src/trapezoid/mod.rs: integrate", "src/simpson/mod.rs: integrate"]}
{"id": "C64", "title": "Gauss-Hermite and Gauss-Laguerre converge for every continuous integrand of polynomial growth", "statement": "For every continuous integrand that grows at most like a polynomial, the weighted integral over the real line (Hermite) or the half line (Laguerre, every alpha above -1) exists, and the results of the rules come arbitrarily close to it as the degree grows; for Laguerre up to the relative error of the library's gamma function. No derivative and no bound on the integrand is needed.", "quantifier": "every continuous integrand of polynomial growth, every alpha above -1, every accuracy, every degree beyond a threshold and every exact eigenvalue solver (exact arithmetic)", "why_tests_cant": "A limit over all degrees and all integrands.", "anchors": ["src/hermite/mod.rs: GaussHermite::new, integrate", "src/laguerre/mod.rs: GaussLaguerre::new, integrate"]}
{"id": "C65", "title": "Gauss-Legendre above 100 points: error for any integrand and convergence", "statement": "For every degree n above 100 the Gauss-Legendre result differs from the integral of f over [a, b] by at most |b - a| times the sum of the variation of f over distances 8|b - a|/(5n) and (7/n + 10^-15) times the maximum of |f|; f need not be smooth. Hence the results for a continuous f come, as n grows, within any positive amount plus 10^-15 of |b - a| max |f| of the integral, and the weights sum to 2 up to 13/n + 2*10^-15.", "quantifier": "every degree n above 100 with 2n within usize, every interval, every integrable f, every bound and modulus of continuity (exact arithmetic)", "why_tests_cant": "All integrands and all degrees up to 2^63; the constants in the asymptotic formulas enter every node.", "anchors": ["src/legendre/bogaert/mod.rs: compute_pair, bessel_j0_zero, bessel_j1_squared", "src/legendre/mod.rs: GaussLegendre::new, integrate"]}
{"id": "C66", "title": "Golub-Welsch rules are robust against errors of the eigenvalue solver", "statement": "If the eigenvalue solver is accurate only up to rho in the residuals and phi in the orthogonality of the eigenvectors, then the Hermite, Laguerre and (even degree) Jacobi rules integrate every polynomial of degree at most 2n-1 up to an explicit bound that is linear in rho and phi, and every node is within rho*sqrt(n/(1-phi)) of a zero of the orthogonal polynomial. So nothing in the construction amplifies the errors of the external code.", "quantifier": "every solver, every size of its errors, every degree, parameter and polynomial (exact arithmetic)", "why_tests_cant": "A test runs one solver; the property covers every solver meeting the bounds, every degree and every polynomial.", "anchors": ["src/golub_welsch.rs: golub_welsch", "src/hermite/mod.rs: GaussHermite::new", "src/laguerre/mod.rs: GaussLaguerre::new", "src/jacobi/mod.rs: GaussJacobi::new"]}
{"id": "C67", "title": "Golub-Welsch rules (Hermite, Laguerre, Jacobi) in double arithmetic, from the constructor to the result", "statement": "With a solver that is accurate up to rho and phi on the matrix of doubles it is given, the nodes and weights computed in double arithmetic are finite, every node is within (rho + c)*sqrt(n/(1-phi)) of a node of the true rule, where c is a small multiple of the unit roundoff times the size of the matrix, and the results of integrate and par_integrate on any integrand within e of a polynomial of degree at most 2n-1 differ from the integral by at most an explicit bound: the rounding of the sum, a multiple of e, and the errors of nodes and weights. For Laguerre and Jacobi relative to the value of the library's gamma function. For Jacobi of even degree, with errors that grow like 1/dl where dl is the distance of alpha, beta and alpha+beta from -1.", "quantifier": "every solver with finite output, all error sizes, degrees up to 2^53 (2^52 for Laguerre), all Laguerre alpha up to 2^500 and Jacobi alpha, beta up to 10^15 with dl >= 10^-10, with finite gamma values, every polynomial, integrand and schedule, every behaviour of the platform's pow (double arithmetic)", "why_tests_cant": "Every degree, parameter, integrand and schedule; a test sees one rounding pattern.", "anchors": ["src/golub_welsch.rs: golub_welsch", "src/hermite/mod.rs: GaussHermite::new, integrate, par_integrate", "src/laguerre/mod.rs: GaussLaguerre::new, integrate, par_integrate", "src/jacobi/mod.rs: GaussJacobi::new, integrate, par_integrate"]}
{"id": "C68", "title": "Exceptional values of the integrand are never hidden", "statement": "For each of the nine rules, in double arithmetic: if the integrand returns NaN at one of the points at which integrate or par_integrate evaluates it, the result is NaN; if the result is finite, then every value of the integrand, both bounds and all weights are finite; if all values are zeros (of either sign) and the weights are finite, integrate and par_integrate return the same zero, with the same sign, under every schedule.", "quantifier": "every rule, every nodes and weights, every number of points, every pair of bounds (infinite and NaN included), every integrand (stateful ones for integrate), every schedule, every math library and NaN payload convention", "why_tests_cant": "The value that is exceptional may sit at any of arbitrarily many points, and the schedules and rules are unbounded.", "anchors": ["src/midpoint/mod.rs: integrate, par_integrate", "src/trapezoid/mod.rs: integrate, par_integrate", "src/simpson/mod.rs: integrate, par_integrate", "src/legendre/mod.rs: integrate, par_integrate", "src/jacobi/mod.rs: integrate, par_integrate", "src/chebyshev/mod.rs: integrate, par_integrate", "src/hermite/mod.rs: integrate, par_integrate", "src/laguerre/mod.rs: integrate, par_integrate"]}
{"id": "C69", "title": "The Newton-Cotes rules in double arithmetic, from the call to the integral", "statement": "For the midpoint, trapezoidal and Simpson rules with n subintervals, computed in doubles, sequentially or in parallel: if the integrand's doubles are within e of a function G with Lipschitz constant L and bound B on the interval and the result is finite, the result differs from the rule in exact arithmetic by at most |b-a| (e + L 2^-50 (|a|+|b|)) + (n+8) 2^-52 |b-a| (B+e) + (1+|b-a|) 2^-1074, and from the integral of G by this plus the classical error bound M |b-a|^3/(24 n^2), M |b-a|^3/(12 n^2), M |b-a|^5/(2880 n^4) respectively.", "quantifier": "every degree below 2^32, every pair of finite bounds whose subintervals are not subnormal, every integrand, every schedule, every math library", "why_tests_cant": "All doubles, all integrands and all schedules.", "anchors": ["src/midpoint/mod.rs: integrate, par_integrate", "src/trapezoid/mod.rs: integrate, par_integrate", "src/simpson/mod.rs: integrate, par_integrate"]}
{"id": "C70", "title": "Chebyshev and Legendre rules are accurate as built in double arithmetic", "statement": "If the platform's sin and cos have relative error kappa on [0, 4] (2^-53 for a correctly rounded library), every node returned by the Gauss-Chebyshev and Gauss-Legendre constructors is a finite double within 1.02 kappa + 3e-15 (kappa + 1.2e-15 for Chebyshev and for Legendre up to degree 100) of the node the same formulas give in exact arithmetic, and every weight is a finite double within (7 kappa + 2e-14)/n of that weight.", "quantifier": "every degree (up to 2^52 for Chebyshev, up to 2^40 for Legendre), every node index, every accuracy kappa <= 1e-6 of the math library, every build target", "why_tests_cant": "tests compare a few degrees against reference tables with a tolerance; the claim is about each of the nodes of every degree and every conforming math library", "anchors": ["src/chebyshev/mod.rs: GaussChebyshevFirstKind::new", "src/chebyshev/mod.rs: GaussChebyshevSecondKind::new", "src/legendre/bogaert/mod.rs: tabulated_pair", "src/legendre/bogaert/mod.rs: compute_pair (asymptotic expansion)", "src/legendre/mod.rs: GaussLegendre::new"]}
{"id": "C71", "title": "Interval Gauss rules in double arithmetic: from the call to the integral", "statement": "For the Gauss-Chebyshev and the Gauss-Legendre rules, the double returned by integrate or par_integrate, if finite, differs from the value of the exact-arithmetic rule by at most an explicit bound made of the error of the integrand's evaluation, its Lipschitz constant times the error of the points, the error of the weights, (n+4) 2^-52 times the size of the sum, and underflow; and from the integral by this bound plus the truncation error of the rule (the classical error term for smooth integrands for Chebyshev and for Legendre up to degree 100; a term of order 1/n for Lipschitz integrands for Legendre above degree 100).", "quantifier": "every degree up to 2^40, every pair of finite bounds up to 2^1000, every integrand computed with error e, every schedule of the parallel version, every math library of relative error kappa <= 1e-6", "why_tests_cant": "tests check a few integrands against tolerances; here one bound covers all of rounding, scheduling, library errors and truncation for every call", "anchors": ["src/chebyshev/mod.rs: integrate", "src/chebyshev/mod.rs: par_integrate", "src/legendre/mod.rs: integrate", "src/legendre/mod.rs: par_integrate"]}
{"id": "C72", "title": "No overflow: integrate returns finite doubles for integrands of moderate size", "statement": "If the integrand's values at the evaluation points are finite and not huge, integrate and par_integrate return a finite double: no intermediate sum, product or scaling of any of the nine rules overflows or turns into NaN. For the Newton-Cotes, Gauss-Legendre and Gauss-Chebyshev rules as constructed it is enough that the bounds are at most 2^60 in absolute value and the integrand is finite and at most 2^900 at the doubles between the bounds (for the Gauss rules: or slightly beyond). Some bound is needed: a two-cell midpoint rule on [1,2] applied to the constant 1e308 overflows although the integral is representable.", "quantifier": "every rule contents or every degree up to 2^40, every integrand (stateful for the sequential versions), every pair of bounds of the stated sizes, every schedule of the parallel versions, every math library of relative error kappa <= 1e-6", "why_tests_cant": "tests call each rule with a few integrands of size about one; overflow depends on sizes, degree and the order of the parallel summation", "anchors": ["src/legendre/mod.rs: integrate, par_integrate", "src/jacobi/mod.rs: integrate, par_integrate", "src/hermite/mod.rs: integrate, par_integrate", "src/laguerre/mod.rs: integrate, par_integrate", "src/chebyshev/mod.rs: integrate, par_integrate", "src/midpoint/mod.rs: integrate, par_integrate", "src/trapezoid/mod.rs: integrate, par_integrate", "src/simpson/mod.rs: integrate, par_integrate"]}
{"id": "C73", "title": "Computed nodes stay inside the open interval, distinct and in order; computed weights stay positive", "statement": "As doubles, the nodes of the Gauss-Legendre and Gauss-Chebyshev rules are finite, lie strictly between -1 and 1 and are strictly ascending (so no two coincide), and the weights are finite and strictly positive, as long as the degree n satisfies n^2 (10 kappa + 2e-14) <= 1, where kappa is the relative error of the platform's sine and cosine (with correct rounding: up to more than six million points; Gauss-Legendre up to 100 points: no condition). Such a condition is needed: from 2^30 points on, even with correctly rounded sines and cosines, the two largest nodes are both equal to 1, the end of the interval.", "quantifier": "every degree up to 2^40 with the stated condition, every usize width, every math library of relative error kappa <= 1e-6", "why_tests_cant": "tests look at a few degrees with one math library; the gap between neighbouring nodes shrinks like 1/n^2 and competes with the rounding errors of the angle and of the cosine", "anchors": ["src/chebyshev/mod.rs: GaussChebyshevFirstKind::new, GaussChebyshevSecondKind::new", "src/legendre/mod.rs: GaussLegendre::new", "src/legendre/bogaert/mod.rs: NodeWeightPair::new, ThetaWeightPair::compute, tabulated"]}
{"id": "C74", "title": "The gamma function and the scale factors of the rules are accurate as computed in double arithmetic", "statement": "With a math library whose sine and power function have relative error kappa, gamma(x) computed in doubles is finite and within a relative error of 1e-11 + 2.2 kappa of Euler's integral for every double x between 1e-19 and 169 (and of the reflection formula between -3/4 and -1e-19). The scale factor of the Gauss-Laguerre weights is within the same error of the integral of the weight function, that of Gauss-Jacobi within 3.1e-11 + 7.4 kappa. Hence integrals of polynomials of degree below 2n by Gauss-Laguerre (alpha+1 up to 160) and Gauss-Jacobi (even n) differ from the exact integrals by that relative error plus the stated effects of the eigenvalue solver, of rounding the sum and of the integrand's own error, with no assumption left about the computed scale factor.", "quantifier": "every double argument in the stated ranges, every parameter, degree up to 2^52, solver of the stated accuracy, polynomial integrand, order of parallel summation, and every math library with kappa <= 1e-6", "why_tests_cant": "tests compare a handful of arguments with one library; the alternating sum of the approximation loses almost four digits by cancellation and the power amplifies rounding errors, so the worst case over all doubles is not visible from samples", "anchors": ["src/math.rs: gamma", "src/laguerre/mod.rs: GaussLaguerre::new, integrate, par_integrate", "src/jacobi/mod.rs: GaussJacobi::new, integrate, par_integrate"]}
{"id": "C75", "title": "Weights are finite when the integral of the weight function is representable", "statement": "If the parameters are valid and the integral of the weight function is a number that a double can hold, the weights of Gauss-Laguerre and Gauss-Jacobi rules are finite. This holds for alpha+1 up to 168.9 (Laguerre), and for Jacobi if alpha+beta+1 is at most 160 and 2^(alpha+beta+1) Gamma(alpha+1) Gamma(beta+1) is at most 2^990. It fails in general: GaussLaguerre::new(n, 169.0) has no finite weight although the integral is 169!, and GaussJacobi::new(n, 160.0, 0.0) with even n has none although the integral is 2^161/161.", "quantifier": "every degree, every valid parameter in the stated range, every solver whose eigenvectors have first components of size at most 1.1, every math library with kappa <= 1e-6", "why_tests_cant": "tests use small parameters, where no intermediate result comes near the largest double", "anchors": ["src/math.rs: gamma", "src/laguerre/mod.rs: GaussLaguerre::new", "src/jacobi/mod.rs: GaussJacobi::new"]}
{"id": "C76", "title": "Gauss-Legendre rules of more than 100 points are Gauss rules to nearly double precision", "statement": "There is exactly one rule with n points that integrates every polynomial of degree at most 2n-1 over [-1,1] exactly. For every n above 100 the i-th node returned by GaussLegendre::new(n) lies, in exact arithmetic, within 7.1e-14/(n+1/2) of the i-th node of that rule and its weight within a relative distance of 2.4e-13. Hence the weights add up to 2 within 4.8e-13, integrate over any interval is wrong by at most 1.05e-12 times the maximum of |p| times half the length of the interval for every polynomial p of degree at most 2n-1, other integrands add five times their distance to such polynomials, and for every integrand the result is that of the exact Gauss rule up to 2.4e-13 of its size and its change over a 10^-13/n part of the interval.", "quantifier": "every degree above 100 that the target can count twice, every node, every polynomial, interval and integrand", "why_tests_cant": "for large n no closed form of the nodes exists and the expansion is only asymptotic; tests compare a few degrees with tables, while a wrong digit in one of the hundred-odd coefficients shows up only for some n and some nodes", "anchors": ["src/legendre/bogaert/mod.rs: ThetaWeightPair::compute_pair, bessel_j0_zero, bessel_j1_squared", "src/legendre/bogaert/data.rs: JZ, J1", "src/legendre/mod.rs: GaussLegendre::new, integrate"]}
{"id": "C77", "title": "Gauss-Legendre rules of more than 100 points in doubles agree with the exact Gauss rule and with the integral", "statement": "Suppose sine and cosine have the relative error kappa. For 100 < n <= 2^40 every node returned by GaussLegendre::new(n) is a finite double within 1.02 kappa + 4e-15 of the node of the exact n-point Gauss rule, and every weight is finite and within (2e-14 + 5 kappa)/n plus 2.4e-13 of itself of the exact weight. The finite results of integrate and par_integrate, in whatever order the sum is taken, differ from the integral by at most the rounding effects of C71 plus (1.05e-12 B + 5 E) times half the length of the interval, where E is the distance of the integrand to a polynomial of degree 2n-1; for integrands with 2n derivatives E is bounded by the classical derivative term.", "quantifier": "every library accuracy kappa, every degree from 101 to 2^40, every node, interval, integrand and its computed version, every schedule of the parallel sum", "why_tests_cant": "tests evaluate a few integrands at a few degrees on one machine; the claim joins truncation, asymptotic and rounding errors for all degrees and all libraries", "anchors": ["src/legendre/mod.rs: GaussLegendre::new, integrate, par_integrate", "src/legendre/bogaert/mod.rs: NodeWeightPair, ThetaWeightPair::new"]}
{"id": "C78", "title": "The Gauss-Legendre rules of at most 100 points are Gauss rules to the last digits of the tables", "statement": "For every n from 1 to 100, the angles and nodes of GaussLegendre::new(n), in exact arithmetic, lie within 2.1e-16 of the nodes of the exact n-point Gauss rule, in the same order, and every weight lies within the relative distance 2.1e-16 of the exact weight. The value of integrate therefore differs from the value of the exact rule by at most the oscillation of the integrand at that distance plus 2.1e-16 of its bound, times the length of the interval. For every number of points, small or large, nodes lie within 7.1e-14/(n+1/2) and weights within 2.4e-13 of themselves. In doubles, with a library whose sine and cosine have the relative error kappa, every node for n <= 100 is finite and within kappa + 1.1e-15, and every weight finite and within 2e-15/n + 2.1e-16 of itself.", "quantifier": "every degree, every node and weight, every interval and integrand, every library accuracy", "why_tests_cant": "a test compares a handful of table entries with another table; the claim fixes all 5100 nodes and weights against the defining property of a Gauss rule", "anchors": ["src/legendre/mod.rs: GaussLegendre::new, integrate", "src/legendre/bogaert/mod.rs: ThetaWeightPair::new, tabulated_pair", "src/legendre/bogaert/data.rs: EVEN_THETA_ZEROS, EVEN_WEIGHTS, ODD_THETA_ZEROS, ODD_WEIGHTS, CL"]}
{"id": "C79", "title": "The error of a Gauss rule has the sign of the 2n-th derivative, with the classical constant", "statement": "In exact arithmetic, if the 2n-th derivative of the integrand is at least L on the domain of integration, the value of integrate for the n-point rule is at most the integral minus L times the classical constant of the family (for Legendre ((b-a)/2)^(2n+1) 2^(2n+1) (n!)^4 / ((2n+1) ((2n)!)^3)); if it is at most U, the value is at least the integral minus U times that constant. In particular a rule never exceeds the integral of a function whose 2n-th derivative is nonnegative, bounded or not. Hermite, Laguerre (up to the accuracy of gamma), Jacobi (even degrees and alpha = beta), Chebyshev exactly; Legendre up to the rounding of the stored nodes and weights, for every number of points.", "quantifier": "every degree, parameter, interval a < b, integrand with 2n derivatives, and every one-sided bound of the derivative", "why_tests_cant": "a test sees one integrand and one degree; a bracket of the integral is only usable if the inequality holds for all of them", "anchors": ["src/hermite/mod.rs: GaussHermite::integrate", "src/laguerre/mod.rs: GaussLaguerre::integrate", "src/jacobi/mod.rs: GaussJacobi::integrate", "src/chebyshev/mod.rs: GaussChebyshevFirstKind::integrate, GaussChebyshevSecondKind::integrate", "src/legendre/mod.rs: GaussLegendre::integrate"]}
{"id": "C80", "title": "integrate respects affine substitution, and exchanging alpha and beta reflects a Jacobi rule", "statement": "In exact arithmetic, for every rule on an interval (Legendre, Jacobi, both Chebyshev kinds, midpoint, trapezoid, Simpson) integrating f from c a + d to c b + d gives c times the result of integrating x -> f(c x + d) from a to b, for every c and d. GaussJacobi::new with alpha and beta exchanged gives the negated nodes in reverse order with the same weights, for every degree, so its integral from a to b is the integral of the reflected function with the original rule, and minus the original rule's integral from b to a; with alpha = beta the rule is symmetric.", "quantifier": "every rule value (substitution); every degree, every admissible alpha, beta with alpha + beta <> -1 outside the delegated pairs, every pair of exact eigensolvers (reflection); all a, b, c, d and integrands", "why_tests_cant": "the law relates two runs of the constructor, with possibly different eigensolver results, for a continuum of parameters and all integrands", "anchors": ["src/jacobi/mod.rs: GaussJacobi::new, GaussJacobi::integrate", "src/legendre/mod.rs: GaussLegendre::integrate", "src/chebyshev/mod.rs: integrate", "src/midpoint/mod.rs: Midpoint::integrate", "src/trapezoid/mod.rs: Trapezoid::integrate", "src/simpson/mod.rs: Simpson::integrate"]}
{"id": "C81", "title": "Gauss rules converge geometrically for analytic integrands", "statement": "In exact arithmetic, if the integrand is on [a,b] the sum of polynomials of degree k bounded by C rho^k with rho < 1 (a Chebyshev series or a power series with geometrically decreasing coefficients, as every function analytic near the interval has), the error of the n-point Gauss-Chebyshev and Gauss-Jacobi rule is at most |b-a| times the total weight times C rho^(2n)/(1-rho), and that of the Gauss-Legendre rule at most (5 rho^(2n) + 3e-14) C/(1-rho) |b-a|/2 (1.05e-12 above 100 points).", "quantifier": "every degree, interval, parameter pair, integrand with such an expansion, C and rho", "why_tests_cant": "a convergence rate is a statement about all degrees and a class of integrands", "anchors": ["src/chebyshev/mod.rs: GaussChebyshevFirstKind::integrate, GaussChebyshevSecondKind::integrate", "src/jacobi/mod.rs: GaussJacobi::integrate", "src/legendre/mod.rs: GaussLegendre::integrate"]}
{"id": "C82", "title": "The eigenvalue routine and the Gauss-Jacobi shortcuts do not show in the result", "statement": "In exact arithmetic, two correct symmetric eigenvalue routines, whatever order and signs of the eigenvectors they return, make GaussHermite::new, GaussLaguerre::new and GaussJacobi::new return the same rule. For alpha = beta = 1/2 the general Gauss-Jacobi construction would give the nodes of the Chebyshev rule that is returned instead and its weights times one factor within 3.6e-13 of 1; for alpha = beta = 0 it would give the Legendre nodes within 7.1e-14/(n+1/2) and the weights within 6.1e-13 relative.", "quantifier": "every degree, parameter pair and pair of correct eigenvalue routines", "why_tests_cant": "a test runs one linear-algebra library with one order and sign convention; the general path is unreachable for the delegated parameters", "anchors": ["src/hermite/mod.rs: GaussHermite::new", "src/laguerre/mod.rs: GaussLaguerre::new", "src/jacobi/mod.rs: GaussJacobi::new"]}
{"id": "C83", "title": "Negating the integrand negates the result exactly", "statement": "In double arithmetic, integrate and par_integrate of -f return exactly the negative of what they return for f with the same rule, bounds and work-splitting (zeros compare equal whatever their sign; one result is NaN exactly when the other is), also through overflow and infinities, and for nested integrals.", "quantifier": "every rule with any nodes and weights, bounds, integrand with or without state, work-splitting, math backend", "why_tests_cant": "rounding, overflow and NaN cases depend on all inputs and schedules", "anchors": ["src/midpoint/mod.rs, src/trapezoid/mod.rs, src/simpson/mod.rs: integrate, par_integrate", "src/legendre/mod.rs, src/jacobi/mod.rs, src/chebyshev/mod.rs, src/hermite/mod.rs, src/laguerre/mod.rs: integrate, par_integrate"]}
{"id": "C84", "title": "A larger integrand never gives a smaller result", "statement": "In double arithmetic, if f(x) <= g(x) at every point that the rule evaluates, the bounds are not reversed and no weight is negative, then integrate and par_integrate (with the same work-splitting) of f are not above those of g, rounding and overflow included, unless one is NaN; in particular an integrand between two constants has a result between those of the constants. The same for nested integrals.", "quantifier": "every rule without negative weights, bounds a <= b, pair of integrands with or without state, work-splitting, math backend", "why_tests_cant": "rounding could break monotonicity for some inputs only; the claim is for all inputs and schedules", "anchors": ["src/midpoint/mod.rs, src/trapezoid/mod.rs, src/simpson/mod.rs: integrate, par_integrate", "src/legendre/mod.rs, src/jacobi/mod.rs, src/chebyshev/mod.rs, src/hermite/mod.rs, src/laguerre/mod.rs: integrate, par_integrate"]}
{"id": "C85", "title": "Monotone integrands, jumps included", "statement": "For an integrand that is only known to be nondecreasing and bounded between two values, possibly with jumps, the weighted integral lies between the rule's sum with every node moved one place to the left and the sum with every node moved one place to the right, and the error of integrate is at most the largest weight times the rise of the integrand. Gauss-Legendre weights are at most 4/n and Gauss-Chebyshev weights at most pi/n, so these rules converge like 1/n for every such integrand (up to a relative error of about 5e-13 for the stored Gauss-Legendre nodes).", "quantifier": "every degree, interval, admissible parameter, monotone bounded integrand with a (weighted) integral; exact arithmetic", "why_tests_cant": "no smoothness is assumed: the claim ranges over all monotone functions and all jump positions", "anchors": ["src/legendre/mod.rs, src/legendre/bogaert.rs: GaussLegendre::new, integrate", "src/hermite/mod.rs: GaussHermite::new, integrate", "src/laguerre/mod.rs: GaussLaguerre::new, integrate", "src/jacobi/mod.rs: GaussJacobi::new, integrate", "src/chebyshev/mod.rs: new, integrate"]}
{"id": "C86", "title": "Convergence for every Riemann-integrable integrand", "statement": "For every Riemann-integrable integrand, continuous or not, the values of GaussLegendre::integrate converge to the integral as the degree grows, up to 2.4e-13 |b-a| max|f| for the rounding of the stored nodes and weights. GaussChebyshevFirstKind with n points is the midpoint rule with n cells applied to f as a function of the angle, GaussChebyshevSecondKind with n points the trapezoid rule with n+1 cells applied to sin^2 times f as a function of the angle, so both converge whenever that function is Riemann integrable.", "quantifier": "every Riemann-integrable integrand, interval, and all degrees from some degree on; the two identities for every integrand whatever; exact arithmetic", "why_tests_cant": "a limit over all degrees for functions with arbitrary (even infinitely many) discontinuities", "anchors": ["src/legendre/mod.rs, src/legendre/bogaert/mod.rs: GaussLegendre::new, integrate", "src/chebyshev/mod.rs: new, integrate", "src/midpoint/mod.rs, src/trapezoid/mod.rs: integrate"]}
{"id": "C87", "title": "Where Gauss-Hermite and Gauss-Laguerre rules evaluate the integrand", "statement": "The n-point Gauss-Hermite rule (n >= 2) evaluates the integrand only at points with |x| < sqrt(2n-2), and its outermost nodes lie beyond sqrt(n-3/2) on both sides. The n-point Gauss-Laguerre rule with parameter alpha evaluates it only between (alpha+1)/n and 4n-2+2 alpha, its largest node is at least 2n-1+alpha and its smallest at most alpha+1. Two integrands that agree on these ranges get the same result, whatever they do elsewhere.", "quantifier": "every degree, every parameter alpha > -1, every exact eigenvalue solver, every pair of integrands; exact arithmetic", "why_tests_cant": "a range for the nodes of all degrees and a continuum of parameters", "anchors": ["src/hermite/mod.rs: GaussHermite::new, nodes, integrate", "src/laguerre/mod.rs: GaussLaguerre::new, nodes, integrate"]}
{"id": "C88", "title": "Integrands with bounded slope: error of order 1/n for every degree", "statement": "If the values of the integrand between a and b differ by at most K times the distance of the arguments (kinks allowed), the error of the midpoint, trapezoid and Simpson rules with n cells is at most (b-a)^2 K/(4n); that of Gauss-Chebyshev with n points at most (b-a)^2/2 pi K/n (second kind: n+1); that of Gauss-Jacobi at most (b-a)^2/2 K times the largest weight; that of Gauss-Legendre at most 2 (b-a)^2 K/n up to the rounding of the stored nodes and weights.", "quantifier": "every Lipschitz integrand, every interval, every degree, every exact eigenvalue solver; exact arithmetic", "why_tests_cant": "an a-priori bound over all degrees and all integrands of bounded slope", "anchors": ["src/midpoint/mod.rs, src/trapezoid/mod.rs, src/simpson/mod.rs: integrate", "src/legendre/mod.rs, src/legendre/bogaert/mod.rs: GaussLegendre::new, integrate", "src/chebyshev/mod.rs: new, integrate", "src/jacobi/mod.rs: new, integrate"]}
{"id": "C89", "title": "The points of neighbouring degrees interlace", "statement": "Between any two neighbouring nodes of the rule with n+1 points lies exactly one node of the rule with n points, and there are no others: Gauss-Hermite, Gauss-Laguerre, Gauss-Jacobi with alpha = beta, both Gauss-Chebyshev rules (all degrees), Gauss-Legendre (n up to 99). So the two rules have no point in common, every evaluation of the larger one is new, and the larger one reaches further out on both sides.", "quantifier": "every degree, every parameter alpha > -1, any two exact eigenvalue solvers; exact arithmetic", "why_tests_cant": "a relation between the rules of all pairs of neighbouring degrees, for all parameters", "anchors": ["src/hermite/mod.rs: GaussHermite::new", "src/laguerre/mod.rs: GaussLaguerre::new", "src/jacobi/mod.rs: GaussJacobi::new", "src/chebyshev/mod.rs: new", "src/legendre/mod.rs, src/legendre/bogaert/mod.rs: GaussLegendre::new"]}
{"id": "C90", "title": "Changing the unit by a power of two changes nothing else", "statement": "In double arithmetic, multiplying the integrand by 2^k multiplies the result of integrate and of par_integrate by exactly 2^k, and rescaling the variable (both bounds multiplied by 2^k, the integrand composed with the inverse) multiplies every evaluation point and the result by exactly 2^k and leaves the sequence of calls and the final state of the integrand unchanged, provided no result overflows and no value, weight, bound or node other than zero is near the underflow threshold. Without the lower limit the law fails.", "quantifier": "every rule, every interval, every integrand with internal state, every k, every split of the parallel reduction; double arithmetic with any elementary functions", "why_tests_cant": "a relation between the roundings of two computations, for all integrands, intervals and exponents", "anchors": ["src/midpoint/mod.rs, src/trapezoid/mod.rs, src/simpson/mod.rs: integrate, par_integrate", "src/legendre/mod.rs, src/jacobi/mod.rs, src/chebyshev/mod.rs, src/hermite/mod.rs, src/laguerre/mod.rs: integrate, par_integrate, argument_transformation, scale_factor"]}
{"id": "C91", "title": "Integrands with jumps and turns: error bounded by the total variation", "statement": "An integrand of total variation V is integrable, and the error is at most (b-a)V/(2n) for the midpoint, trapezoid and Simpson rules with n cells, (b-a)/2 * 4V/n (plus terms of relative size 1e-11 and 48e-14) for Gauss-Legendre, (b-a)/2 * pi V/n and pi V/(n+1) for the Gauss-Chebyshev rules, and V times the largest weight for Gauss-Jacobi (times half the length), Gauss-Hermite and Gauss-Laguerre. No continuity, no monotonicity.", "quantifier": "every integrand of bounded variation, every interval, every degree and parameter; exact arithmetic, any exact eigenvalue solver", "why_tests_cant": "a bound for all integrands of a non-smooth class and all degrees, including the existence of the integral", "anchors": ["src/midpoint/mod.rs, src/trapezoid/mod.rs, src/simpson/mod.rs: integrate", "src/legendre/mod.rs, src/chebyshev/mod.rs, src/jacobi/mod.rs, src/hermite/mod.rs, src/laguerre/mod.rs: new, integrate"]}
{"id": "C92", "title": "Odd integrands integrate to exactly zero", "statement": "If the integrand is odd about the middle of the domain (f(a+b-x) = -f(x); f(-x) = -f(x) for Gauss-Hermite), integrate returns 0 in exact arithmetic, for the midpoint, trapezoid, Simpson, Gauss-Legendre, Gauss-Chebyshev and Gauss-Hermite rules and for Gauss-Jacobi with alpha = beta; the Gauss-Hermite nodes and weights are symmetric about 0 for any exact eigenvalue solver. In double arithmetic the result need not be 0: the midpoint rule with 4 cells over [-1, 1] returns 1/2 for some odd integrand with values up to 2^53.", "quantifier": "every odd integrand (no smoothness), every interval, every degree (Legendre: up to 100, or even), any exact eigenvalue solver", "why_tests_cant": "exact cancellation for all integrands, degrees and eigenvalue solvers", "anchors": ["src/hermite/mod.rs: new, integrate", "src/legendre/mod.rs, src/chebyshev/mod.rs, src/jacobi/mod.rs: new, integrate", "src/midpoint/mod.rs, src/trapezoid/mod.rs, src/simpson/mod.rs: integrate"]}
{"id": "C93", "title": "Periodic integrands over a full period", "statement": "Over one period [a, b] the midpoint, trapezoid and Simpson rules with n cells integrate every trigonometric polynomial of degree below n exactly, and fail on cos(2 pi n (x-a)/(b-a)). For any integrable f the error is at most 2(b-a) times the distance of f from such polynomials on [a, b]. If the k-th Fourier coefficients of f are at most M r^k with r < 1, f is integrable and the error is at most (b-a) 2M r^n/(1-r).", "quantifier": "every period, degree, trigonometric polynomial, integrable function and Fourier series with geometric decay; exact arithmetic", "why_tests_cant": "exactness on an infinite-dimensional class and a rate for all degrees", "anchors": ["src/midpoint/mod.rs: Midpoint::integrate", "src/trapezoid/mod.rs: Trapezoid::integrate", "src/simpson/mod.rs: Simpson::integrate"]}
{"id": "C94", "title": "The error of the Newton-Cotes rules decreases like n^-2 and n^-4, and the difference of two results estimates it", "statement": "For a twice continuously differentiable integrand n^2 (result - integral) tends to (b-a)^2 (f'(b)-f'(a))/12 for the trapezoid and to -(b-a)^2 (f'(b)-f'(a))/24 for the midpoint rule; for a four times continuously differentiable one n^4 (result - integral) tends to (b-a)^4 (f'''(b)-f'''(a))/2880 for the Simpson rule. If that limit is not 0, the errors with 2n and n cells have a ratio tending to 1/4 (1/16), and (Q_n - Q_2n)/3 (/15) divided by the error of Q_2n tends to 1.", "quantifier": "every interval a < b and every integrand with the stated derivatives; limits in the degree; exact arithmetic", "why_tests_cant": "a limit statement for all smooth integrands", "anchors": ["src/midpoint/mod.rs: Midpoint::integrate", "src/trapezoid/mod.rs: Trapezoid::integrate", "src/simpson/mod.rs: Simpson::integrate"]}
{"id": "C95", "title": "Double integrals over regions converge", "statement": "For a continuous integrand of two variables, continuous boundary functions c and d and any combination of midpoint, trapezoid and Simpson rules, the outer integrate over [a, b] of the inner integrate over [c(x), d(x)] comes within any given distance of the integral over the region once both degrees exceed a bound. For any inner integrator whose error is at most e2 for each x, the total error is at most the error of the outer rule plus (b-a) e2. Nested Gauss-Legendre rules of more than 100 points come within any eps plus 3e-15 (b-a) times the bounds of the integrand and of the width of the region.", "quantifier": "every continuous integrand, every pair of continuous boundary functions (also crossing ones), every interval, every pair of large degrees; exact arithmetic", "why_tests_cant": "convergence uniform in the outer variable, for all integrands and regions", "anchors": ["src/lib.rs: documentation of double integrals", "src/midpoint/mod.rs, src/trapezoid/mod.rs, src/simpson/mod.rs: integrate", "src/legendre/mod.rs: GaussLegendre::integrate"]}
{"id": "C96", "title": "Double integrals in double arithmetic: from the nested calls to the integral", "statement": "If the integrand of two variables is computed up to the error e on the rectangle [a,b] x [c,d], is bounded by B there and has the Lipschitz constants Lx and Ly in its two variables, then a midpoint, trapezoid or Simpson integrate or par_integrate of degree n over an inner one of degree m, in double arithmetic, returns a finite double whose distance from the integral over the rectangle is at most an explicit expression: (b-a)^2 (d-c) Lx / (4n) for the outer rule, the error (d-c)^2 Ly / (4m) plus all rounding of the inner rule times about (b-a), and the rounding of the outer one. The same holds, with explicit additional terms, for the region between two graphs whose boundary functions have a Lipschitz constant and are themselves computed in doubles up to a given error.", "quantifier": "every integrand of two variables and every function it approximates, every rectangle and every region between two graphs of ordinary size, all nine combinations of rules, all pairs of degrees below 2^32, sequential and parallel calls with every splitting, every libm", "why_tests_cant": "a bound on the accumulated error of two levels of calls for all integrands, bounds, degrees and schedules", "anchors": ["src/lib.rs: documentation of double integrals", "src/midpoint/mod.rs, src/trapezoid/mod.rs, src/simpson/mod.rs: integrate, par_integrate"]}
{"id": "C97", "title": "Triangle, Cauchy-Schwarz and Jensen inequalities hold for computed integrals", "statement": "With bounds in order and no negative weight, |integrate(f)| is not above integrate(|f|) in double arithmetic, exactly and for every degree, also for par_integrate with the same splitting and for nested integrals. In exact arithmetic integrate(fg)^2 <= integrate(f^2) integrate(g^2), and phi(mean of f) <= mean of phi(f) for every convex phi, where the mean is integrate(f)/integrate(1).", "quantifier": "every rule, degree, nodes and non-negative weights, every integrand (NaN and infinities included in doubles), every splitting, every nesting depth", "why_tests_cant": "inequalities over all integrands and rules, where a violation by one rounding would go unnoticed", "anchors": ["src/*/mod.rs: integrate, par_integrate", "src/lib.rs: documentation of double integrals"]}
{"id": "C98", "title": "Gauss-Hermite and Gauss-Laguerre converge for integrands of exponential and faster growth", "statement": "For every continuous f with |f(x)| <= C exp(c x^2) and c < 1, in particular for every f with |f(x)| <= C exp(c|x|) and any c, the integral of f exp(-x^2) over the real line exists and GaussHermite::integrate(f) tends to it as the degree grows. For every f continuous on [0, infinity) with |f(x)| <= C exp(c x) and c < 1 the integral of f x^alpha exp(-x) exists and GaussLaguerre::integrate(f) tends to it, up to the relative error of the gamma function.", "quantifier": "every such integrand, smooth or not, every C, every c (below 1 for the growths exp(c x^2) and exp(c x)), every alpha > -1, every tolerance, all degrees from some degree on", "why_tests_cant": "a limit over all degrees for all integrands of a class that outgrows every polynomial; no finite set of degrees shows it", "anchors": ["src/hermite/mod.rs: GaussHermite::new, integrate", "src/laguerre/mod.rs: GaussLaguerre::new, integrate"]}
{"id": "C99", "title": "Gauss rules on bounded intervals converge for integrands with singular end points", "statement": "For every f continuous inside (a,b) that grows at most like (b-x)^-c and (x-a)^-d towards the end points, with c < 1/2 and d < 1/2 for GaussChebyshevFirstKind, c < 3/2 and d < 3/2 for GaussChebyshevSecondKind, c < alpha+1 and d < beta+1 for GaussJacobi, the weighted integral of f over (a,b) exists and integrate(a, b, f) tends to it as the degree grows, although f may be unbounded and undefined at a and b.", "quantifier": "every interval a < b, every such integrand and exponents, every admissible alpha and beta (for alpha <> beta the even degrees), every tolerance, all degrees from some degree on", "why_tests_cant": "a limit over all degrees for all integrands of a class of unbounded functions", "anchors": ["src/chebyshev/mod.rs: GaussChebyshevFirstKind::integrate, GaussChebyshevSecondKind::integrate", "src/jacobi/mod.rs: GaussJacobi::integrate"]}
