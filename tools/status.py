STATUS = {
 'C06': ('partial', 'Round trip proved; the invariant part is false for derived Deserialize: refuted with a witness.'),
 'C10': ('partial', 'Proved for every degree below usize::MAX; at usize::MAX degree+1 overflows and a release build returns an empty rule (refuted with a witness).'),
 'C11': ('proved', 'For every degree n with 2n <= usize::MAX (larger rules cannot be allocated); usize::MAX itself panics in debug builds (refuted with a witness).'),
 'C12': ('partial', 'Hermite and Laguerre fully, Jacobi for even degrees; odd Jacobi degrees refuted with a witness (alpha=42, beta=0, degree 3). Chebyshev: strict order proved in exact arithmetic (C31). Legendre: strict order proved in exact arithmetic for every degree (C42). Chebyshev and Legendre in double arithmetic: sorted by total_cmp for every degree up to 2^40 if the library cosine falls between 0 and pi (C12_*_double), and strictly (C73) up to millions of points for every accurate library.'),
 'C22': ('proved', 'Exact arithmetic: all rules. Double arithmetic: proved for intervals that are neither subnormal nor close to overflow (Newton-Cotes) and for nodes clear of the end points (Gauss); refuted with witnesses outside of these conditions.'),
 'C36': ('partial', 'Proved for even degrees, for odd degrees with alpha=beta, and for degree 1 (C39); for odd degrees with alpha<>beta the exact defect is proved and the property refuted with a witness. alpha+beta=-1 and the delegated pairs are treated elsewhere.'),
 'C37': ('partial', 'Refuted by witnesses (alpha=-0.25, beta=-0.75; alpha=beta=2^600). Proved: all matrix entries finite for parameters up to 2^200 with |alpha+beta+1| >= 2^-48 (all but two entries without that condition). The scale factor and the weights are finite in the ranges of C74 and C75 if the power function of the platform is accurate.'),
 'C49': ('proved', 'Non-negativity of the stored weights is proved for Hermite and Chebyshev rules with any library, for Legendre rules up to 2^40 points with a library whose sine and cosine are accurate, for Laguerre rules with an accurate power function (alpha up to 167.9), and for Jacobi rules whose computed scale factors are not negative.'),
 'C44': ('partial', 'Proved for every non-integer x except 1/2, where it is refuted.'),
 'C50': ('proved', 'Relative error at most 1.2e-13 for every argument at which Gamma is defined, exact arithmetic (no rounding, no overflow). The documented 16 digits are refuted at x=50.'),
 'C41': ('proved', 'Angles, weights and tabulated middle node in any arithmetic; symmetry in exact arithmetic for n <= 100 or even n (for odd n > 100 the middle node comes from the asymptotic expansion and is not exactly 0). For 2n <= usize::MAX.'),
 'C42': ('proved', 'Exact arithmetic, 2n <= usize::MAX.'),
 'C43': ('proved', 'With the constant 1.5e-16 instead of 1e-14. Uses integer fixed-point checks of all tables, evaluated by the kernel (vm).'),
 'C52': ('proved', 'Exact arithmetic with the decimal table values; degrees up to 100.'),
 'C54': ('proved', 'Exact arithmetic, exact eigenvalue solver for Golub-Welsch rules; Jacobi: even degrees or alpha=beta (the other odd degrees are not Gauss rules, C36); Legendre: degrees up to 100, constant 20/2^(2n) instead of the optimal one.'),
 'C55': ('proved', 'Exact arithmetic; Jacobi: even degrees or alpha=beta, up to the relative error of the total mass; Legendre: degrees up to 100, error bound instead of a limit.'),
 'C56': ('proved', 'Exact arithmetic; Jacobi: even degrees or alpha=beta. Legendre is not included: the tabulated nodes are rounded.'),
 'C57': ('proved', "At the level of serde's data model; how a format writes numbers as text or bytes is not modelled."),
 'C60': ('partial', 'Proved for the Newton-Cotes rules (NonZeroU32); refuted with witnesses for the node-weight rules, whose derived Deserialize does not validate.'),
 'C64': ('proved', 'Exact arithmetic and exact eigenvalue solver; Laguerre up to the relative error of gamma (C50).'),
 'C65': ('proved', 'Exact arithmetic. The term 10^-15 is the effect of decimal constants in the asymptotic formulas.'),
 'C66': ('proved', 'Exact arithmetic; Jacobi: even degrees (the middle node of odd degrees is overwritten, C36).'),
 'C67': ('proved', 'Double arithmetic. The accuracy of the solver is a hypothesis; Laguerre and Jacobi are relative to the computed gamma value. Jacobi: even degree, alpha, beta and alpha+beta at least 10^-10 away from -1, because the matrix entries lose all digits near alpha + beta = -1 (C37) and the middle node of odd degrees is overwritten (C36).'),
  "C68": ("proved", "Double arithmetic, all nine rules, sequential (stateful integrands) and parallel (every schedule): NaN among the values gives NaN, a finite result implies finite values, bounds and weights, zero values give the same signed zero in both."),
 'C69': ('proved', 'Double arithmetic; degrees below 2^32 and intervals without underflow of the step (plain_interval), finite result.'),
 'C70': ('proved', "Double arithmetic with round to nearest; the accuracy of the library's sin and cos is a hypothesis (an instance exists)."),
 'C71': ('proved', 'Double arithmetic; pure integrands; finite result. Above degree 100 the Legendre truncation term is the Lipschitz one of C65.'),
 'C72': ('proved', 'for arbitrary rule contents of all nine rules in terms of the sizes of values and weights; for the Newton-Cotes, Legendre and Chebyshev rules as constructed in terms of the integrand alone; needs a size bound (counterexample beside the theorems)'),
 'C73': ('proved', 'C73_chebyshev1, _chebyshev2, _legendre (up to 100 points), _legendre_big: separated nodes and total_cmp order; the _large_degree_ends_in_ones theorems show that a condition on the degree is needed.'),
 'C74': ('proved', 'C74_gamma, _gamma_negative, _laguerre_scale, _jacobi_scale, then _laguerre_rule/_result and _jacobi_rule/_result (the C67 bounds with the computed scale factor replaced by the true integral of the weight function).'),
 'C75': ('partial', 'C75_laguerre_weights_finite_partial and C75_jacobi_weights_finite_partial hold in the stated ranges; the general claim is false of the code: C75_laguerre_weights_finite_refuted (the power inside gamma overflows from about 169.76 on), C75_jacobi_weights_finite_refuted (the product of the numerator overflows before the division). Jacobi for every degree from 2 on. Missing: Laguerre parameters between 168.9 and 169.76 minus 1.'),
 'C76': ('proved', 'C76_nodes_and_weights against any rule satisfying gauss_rule (GaussRuleSpec.v), which exists and is unique by C76_gauss_rule; consequences C76_total_weight, C76_polynomials, C76_integrands, C76_same_as_gauss. Exact arithmetic: rounding is the subject of C70, C71.'),
 'C77': ('proved', 'C77_nodes_and_weights combines C70_legendre_big and C76_nodes_and_weights; C77_integrands and C77_derivatives replace the O(1/n) truncation term of C71_legendre_big_integral. C76_derivatives and C76_continuous, also in Prop_BogFloat.v, are the statements in exact arithmetic.'),
 'C78': ('proved', 'C78_tables is about the finitely many table entries, against the exact rule defined by its degree of exactness; C78_every_degree adds C76 for n > 100.'),
 'C79': ('proved', 'Sharper than C54: one-sided bounds, and for Legendre the classical constant instead of the one from Chebyshev interpolation.'),
 'C80': ('proved', 'The exchange law holds also for the odd degrees with a misplaced middle node (C36).'),
 'C81': ('proved', 'Exact arithmetic; Jacobi: even degrees or alpha=beta, up to the relative error of the total mass; Legendre with the effect of the stored digits.'),
 'C82': ('proved', 'Exact arithmetic with an exact eigenvalue routine. Jacobi: alpha+beta <> -1. The pair (-1/2,-1/2), which is also delegated, has alpha+beta = -1, where the general formulas divide by zero (see C37), so there the shortcut is needed and not a shortcut.'),
 'C83': ('proved', 'Doubles, any nodes and weights. The signs of zero results are not compared.'),
 'C84': ('proved', 'Doubles. C49 gives the hypothesis on the weights for the constructed rules.'),
 'C85': ('proved', 'Exact arithmetic. Jacobi: even degrees or alpha = beta (for odd degrees with alpha <> beta see C36). Hermite, Laguerre and Jacobi bounds are in terms of the largest weight.'),
 'C86': ('proved', 'Exact arithmetic. The Chebyshev limits are stated as (b-a)/2 times the integral over the angle.'),
 'C87': ('proved', 'Exact arithmetic, for every eigenvalue solver exact on the companion matrix.'),
 'C88': ('proved', 'Exact arithmetic. Jacobi: even degrees or alpha = beta (C36).'),
 'C89': ('proved', 'Exact arithmetic. Jacobi: alpha = beta (for different parameters odd degrees are not Gauss rules, C36); Legendre: tabulated degrees.'),
 'C90': ('proved', 'Limits stated as powers of two (values 2^-v, weights 2^-w, outer factor 2^-h with v+w+h <= 900). C90_underflow_limit is the witness that a lower limit on the values is needed.'),
 'C91': ('proved', 'Exact arithmetic. Jacobi: even degrees or alpha = beta (C36).'),
 'C92': ('proved', 'Exact arithmetic, with a double-arithmetic witness for what rounding does. Legendre rules of odd degree above 100 are not exactly symmetric (middle node computed, C41). Jacobi with delegated parameters is the Legendre or Chebyshev rule.'),
 'C93': ('proved', 'Exact arithmetic; example: the Poisson kernel.'),
 'C94': ('proved', 'Exact arithmetic.'),
 'C95': ('proved', 'Exact arithmetic; any combination of Newton-Cotes rules, and Gauss-Legendre rules of more than 100 points.'),
 'C96': ('proved', 'Newton-Cotes rules in doubles; rectangles and regions between two graphs.'),
 'C97': ('proved', 'Triangle inequality in doubles; Cauchy-Schwarz and Jensen in exact arithmetic.'),
 'C98': ('proved', 'Exact arithmetic; extends C64 from polynomial growth to exp(c x^2), c < 1, for Hermite and exp(c x), c < 1, for Laguerre.'),
 'C99': ('proved', 'Exact arithmetic. Odd degrees with alpha <> beta are excluded because of the middle node (C36).'),
}
