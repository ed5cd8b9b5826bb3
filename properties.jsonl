{"id": "C01", "title": "A MultiIndex behaves as the dense vector it was built from, for every construction and update history", "statement": "Build a MultiIndex from any vector of non-negative integers and then call Set(i,v) any number of times with i < Length(). At every point of that history Vector() is exactly the dense vector obtained by the same writes, Get(i) is its i-th entry, Sum() its sum, Max() its maximum, NumNz() its number of non-zeros and Length() is unchanged.", "quantifier": "all vectors of any length, all finite sequences of in-range Set calls", "why_tests_cant": "the object stores a sorted sparse list with cached sum and maximum; a test checks a handful of update orders, the claim is about every order of inserts, overwrites and erasures", "anchors": ["MParT/MultiIndices/MultiIndex.h", "src/MultiIndices/MultiIndex.cpp: MultiIndex::MultiIndex, Vector, Set, Get, Sum, Max, NumNz"]}
{"id": "C02", "title": "MultiIndex comparison is a strict total order that agrees with equality", "statement": "operator< on MultiIndex objects is irreflexive, transitive and total up to operator==; operator== holds exactly when the two objects have the same length and the same dense entries; >, >=, <= are the derived relations. Hence a std::map keyed by MultiIndex never conflates or loses keys.", "quantifier": "all triples of MultiIndex objects reachable by construction and in-range Set calls, of any lengths", "why_tests_cant": "order axioms quantify over all triples; std::map is silently corrupted by a single violation", "anchors": ["src/MultiIndices/MultiIndex.cpp: operator<, operator>, operator<=, operator>=, operator==, operator!=", "src/MultiIndices/MultiIndexSet.cpp: multi2global"]}
{"id": "C03", "title": "Out-of-range access to a MultiIndex is rejected", "statement": "Set(i,v) and Get(i) with i >= Length() throw and leave the object unchanged. (The code only rejects i > Length(): Get(Length()) returns a value, and Set(Length(),v) stores an entry after which Vector() writes past the end of its output.)", "quantifier": "all MultiIndex objects, all indices", "why_tests_cant": "the defect sits at one boundary index and its effect is silent memory corruption in another call", "anchors": ["src/MultiIndices/MultiIndex.cpp: Set, Get, Vector"]}
{"id": "C04", "title": "Every limiter accepts exactly the multi-indices its documentation describes, and the standard ones are downward closed", "statement": "TotalOrder(p) accepts m iff sum(m) <= p; MaxDegree(b) iff lengths agree and m_i <= b_i for all i; Dimension(lo,n) iff all entries outside [lo,lo+n) are zero; Anisotropic(w,e) iff lengths agree and prod w_i^m_i >= e; And/Or/Xor/None are the Boolean combinations. TotalOrder, MaxDegree, Dimension and Anisotropic (with accepted constructor arguments), and And/Or of downward closed limiters, accept m whenever they accept a component-wise larger m'.", "quantifier": "all multi-indices of all lengths, all limiter parameters, all nestings of And/Or", "why_tests_cant": "downward closure is what makes set expansion sound, and is a statement about all pairs of comparable multi-indices", "anchors": ["MParT/MultiIndices/MultiIndexLimiter.h", "src/MultiIndices/MultiIndexLimiter.cpp"]}
{"id": "C05", "title": "The default neighbourhood is exactly plus/minus one unit vector", "statement": "ForwardNeighbors(m) lists m+e_i once for each dimension i in order; BackwardNeighbors(m) lists m-e_i once for each i with m_i>0; IsForward(a,b) is true iff b=a+e_i for some i, IsBackward(a,b) iff a=b+e_i for some i, for multi-indices of equal length. b is a forward neighbour of a iff a is a backward neighbour of b.", "quantifier": "all pairs of multi-indices of equal length", "why_tests_cant": "IsForward uses a non-zero count pre-check and an early-out accumulation whose correctness depends on all sparsity patterns", "anchors": ["MParT/MultiIndices/MultiIndexNeighborhood.h", "src/MultiIndices/MultiIndexNeighborhood.cpp"]}
{"id": "C06", "title": "CreateTotalOrder contains exactly the multi-indices of total order at most p", "statement": "For every length d>=1, order p and limiter L, the active multi-indices of CreateTotalOrder(d,p,L) are, without repetition, exactly the length-d multi-indices m with sum(m)<=p accepted by L; with no limiter there are binomial(d+p,p) of them.", "quantifier": "all dimensions, orders and limiters", "why_tests_cant": "recursion depth and breadth are unbounded; tests compare sizes for a few (d,p)", "anchors": ["src/MultiIndices/MultiIndexSet.cpp: CreateTotalOrder, RecursiveTotalOrderFill"]}
{"id": "C07", "title": "CreateTensorProduct contains exactly the multi-indices with all degrees at most p", "statement": "For every length d>=1, order p and limiter L, the active multi-indices of CreateTensorProduct(d,p,L) are, without repetition, exactly the length-d multi-indices m with max(m)<=p accepted by L; with no limiter there are (p+1)^d of them.", "quantifier": "all dimensions, orders and limiters", "why_tests_cant": "recursion depth and breadth are unbounded", "anchors": ["src/MultiIndices/MultiIndexSet.cpp: CreateTensorProduct, RecursiveTensorFill"]}
{"id": "C08", "title": "Active index and multi-index stay in one-to-one correspondence through every history of a MultiIndexSet", "statement": "After any sequence of AddActive, AddInactive-free activations, Activate, Expand, ForciblyExpand and ForciblyActivate calls on a set with a fixed limiter: indices 0..Size()-1 map to pairwise distinct multi-indices, MultiToIndex(IndexToMulti(i))=i, MultiToIndex(m)=-1 exactly for multi-indices that are not active, an index once assigned keeps its multi-index forever, and MaxOrders() is the componentwise maximum of the active multi-indices.", "quantifier": "all finite histories of set-mutating calls with multi-indices of the set's length", "why_tests_cant": "the structure keeps four cross-referencing containers; a bug shows only after specific interleavings of operations", "anchors": ["src/MultiIndices/MultiIndexSet.cpp: AddMulti, AddActive, AddInactive, Activate, Expand, ForciblyExpand, ForciblyActivate, MultiToIndex, IndexToMulti, IsActive"]}
{"id": "C09", "title": "With a fixed limiter every active multi-index satisfies the limiter", "statement": "After any history of mutating calls on a MultiIndexSet whose limiter is never replaced, every active multi-index is accepted by the limiter. (If SetLimiter is called the property fails: multi-indices already stored as inactive can later be activated although the new limiter rejects them.)", "quantifier": "all limiters, all histories", "why_tests_cant": "quantifies over all histories; the failing history needs a particular order of calls", "anchors": ["src/MultiIndices/MultiIndexSet.cpp: AddActive, AddMulti, SetLimiter, Activate"]}
{"id": "C10", "title": "Admissible growth keeps a MultiIndexSet downward closed", "statement": "Starting from an empty-plus-constant, total-order or tensor-product set under a downward closed limiter, any history of Expand(), Expand(i) and admissible Activate calls keeps the active set downward closed: if m is active then so is every m-e_i with m_i>0.", "quantifier": "all starting sets, all histories of admissible growth", "why_tests_cant": "the invariant concerns all reachable states; the code decides admissibility by counting edges incrementally", "anchors": ["src/MultiIndices/MultiIndexSet.cpp: IsAdmissible, Expand, Activate, AdmissibleForwardNeighbors"]}
{"id": "C11", "title": "Frontier, strict frontier, margin and reduced margin are the sets their names promise", "statement": "For a downward closed active set under a downward closed limiter: Margin() is exactly the set of inactive limiter-accepted forward neighbours of active multi-indices; ReducedMargin() exactly those all of whose backward neighbours are active; Frontier() exactly the active multi-indices with an inactive forward neighbour that is accepted and has only active backward neighbours; StrictFrontier() exactly the frontier members none of whose forward neighbours is active. (Merging sets with Union can leave isolated inactive multi-indices for which the reduced margin claim fails.)", "quantifier": "all reachable downward closed sets", "why_tests_cant": "tests look at small two-dimensional pictures; the claim relies on the neighbour graph being complete in every reachable state", "anchors": ["src/MultiIndices/MultiIndexSet.cpp: Margin, ReducedMargin, Frontier, StrictFrontier"]}
{"id": "C12", "title": "Expand() reports each newly activated index once", "statement": "The vector returned by Expand() lists exactly the indices activated by the call, each once. (The code reports an index twice when it is a forward neighbour of two frontier members.)", "quantifier": "all reachable sets", "why_tests_cant": "downstream code walks the returned list in lockstep with coefficient vectors, so one duplicate shifts every later coefficient", "anchors": ["src/MultiIndices/MultiIndexSet.cpp: Expand", "src/TrainMapAdaptive.cpp"]}
{"id": "C13", "title": "Fix() preserves the set: same size, same multi-indices in the same order", "statement": "For every MultiIndexSet whose members have its declared length, Fix(compress) yields a FixedMultiIndexSet of the same length whose i-th multi-index is the i-th active one, for both storage forms, MaxDegrees equals the componentwise maximum, and MultiToIndex of a member returns its index.", "quantifier": "all sets, all members, both storage forms", "why_tests_cant": "offset arithmetic over concatenated variable-length segments for every sparsity pattern", "anchors": ["src/MultiIndices/MultiIndexSet.cpp: Fix", "src/MultiIndices/FixedMultiIndexSet.cpp: FixedMultiIndexSet, IndexToMulti, MultiToIndex, CalculateMaxDegrees, Size"]}
{"id": "C14", "title": "FixedMultiIndexSet::MultiToIndex reports absent multi-indices without reading out of bounds", "statement": "For a multi-index that is not in the set, MultiToIndex returns -1 and reads only inside its arrays. (For the compressed form the search loop runs one iteration too far and reads one past the end of the offset array.)", "quantifier": "all fixed sets, all absent multi-indices", "why_tests_cant": "an out-of-bounds read is usually silent", "anchors": ["src/MultiIndices/FixedMultiIndexSet.cpp: MultiToIndex"]}
{"id": "C15", "title": "The total-order FixedMultiIndexSet constructor enumerates exactly the total-order set within its allocation", "statement": "FixedMultiIndexSet(dim,p) allocates exactly the number of terms and non-zeros it writes, and its members are, without repetition, exactly the multi-indices with sum at most p; there are binomial(dim+p,p) of them.", "quantifier": "all dimensions and orders", "why_tests_cant": "a separate counting recursion sizes the buffers that the fill recursion writes; they must agree for all (dim,p)", "anchors": ["src/MultiIndices/FixedMultiIndexSet.cpp: TotalOrderSize, FillTotalOrder"]}
{"id": "C16", "title": "Limiter replacement is refused exactly when an active member is rejected, and otherwise keeps the set", "statement": "SetLimiter(L) on a consistent set throws if and only if some active multi-index is rejected by L. When it returns, the active multi-indices and their positions are unchanged, every inactive candidate still linked to the set is accepted by L, and every forward neighbour of an active multi-index that L accepts is available as a candidate for expansion. When it throws the set is unchanged. (The code replaces the limiter before checking, so a throwing call leaves the rejected limiter installed.)", "quantifier": "all sets, all new limiters", "why_tests_cant": "requires all set contents and limiter combinations", "anchors": ["src/MultiIndices/MultiIndexSet.cpp: SetLimiter"]}
{"id": "C17", "title": "The three ways of evaluating an orthogonal polynomial agree for every degree and point", "statement": "For every three-term recurrence family, normalised or not, every degree n and point x: entry n of EvaluateAll, of EvaluateDerivatives and of EvaluateSecondDerivatives equals Evaluate(n,x) (value part), and these equal the polynomial defined by the textbook recurrence (Hermite He_n or H_n) divided by its norm when normalisation is requested.", "quantifier": "all degrees, all real points, both families, both normalisation modes", "why_tests_cant": "Clenshaw's downward recurrence and the forward recurrence must coincide at every degree", "anchors": ["MParT/OrthogonalPolynomial.h: EvaluateAll, EvaluateDerivatives, EvaluateSecondDerivatives, Evaluate, Derivative, SecondDerivative"]}
{"id": "C18", "title": "Derivative routines of orthogonal polynomials return the true derivatives", "statement": "For every degree and point the values filled by EvaluateDerivatives and EvaluateSecondDerivatives are the first and second derivatives of the values filled by EvaluateAll, and Derivative(n,x), SecondDerivative(n,x) are the derivatives of Evaluate(n,.). (Derivative(1,x) ignores normalisation, so it is wrong for normalised bases.)", "quantifier": "all degrees, all real points, both families, both normalisation modes", "why_tests_cant": "finite differences at sample points cannot establish an identity of functions for all degrees", "anchors": ["MParT/OrthogonalPolynomial.h: EvaluateDerivatives, EvaluateSecondDerivatives, Derivative, SecondDerivative"]}
{"id": "C19", "title": "Normalised Hermite bases are scaled by the true norm for every degree", "statement": "Normalised evaluation divides by sqrt(sqrt(2 pi) n!) (probabilist) or sqrt(sqrt(pi) 2^n n!) (physicist) for every degree n. (The factorial is computed in 32-bit unsigned arithmetic: it is wrong from n=13 on and zero from n=34 on, so normalisation divides by zero.)", "quantifier": "all degrees", "why_tests_cant": "tests only use low degrees", "anchors": ["MParT/Utilities/MathFunctions.h: Factorial", "MParT/OrthogonalPolynomial.h: Normalization"]}
{"id": "C20", "title": "Hermite functions: all evaluation routines agree and their derivatives are true derivatives", "statement": "For every index n and point x, Evaluate, EvaluateAll, EvaluateDerivatives and EvaluateSecondDerivatives agree on values and the derivative arrays are the true first and second derivatives, as is Derivative(n,x) and SecondDerivative(n,x). (SecondDerivative(n,x) uses the wrong eigenvalue for n>=2.)", "quantifier": "all indices, all real points", "why_tests_cant": "identity of functions for every index", "anchors": ["MParT/HermiteFunction.h"]}
{"id": "C21", "title": "A linearised basis is a C1 extension that is affine outside the interval", "statement": "For every base family, bounds lb<ub and index: inside [lb,ub] the linearised basis equals the base function; outside it is affine; it is differentiable everywhere with the reported first derivative, and the second derivative it reports is zero outside.", "quantifier": "all base families with correct derivatives, all bounds, all points, all indices", "why_tests_cant": "continuity and differentiability at the joints are limit statements", "anchors": ["MParT/LinearizedBasis.h"]}
{"id": "C22", "title": "The positive bijectors are positive, strictly increasing, and their derivative and inverse routines are exact", "statement": "SoftPlus and Exp: Evaluate(x)>0; strictly increasing; Derivative and SecondDerivative are the true first and second derivatives; Inverse(Evaluate(x))=x for every x and Evaluate(Inverse(y))=y for every y>0.", "quantifier": "all real x, all y>0", "why_tests_cant": "analytic identities over all reals", "anchors": ["MParT/PositiveBijectors.h"]}
{"id": "C23", "title": "The logistic sigmoid is an increasing bijection onto (0,1) with exact derivative and inverse routines", "statement": "Logistic Evaluate lies in (0,1), is strictly increasing, Inverse is its two-sided inverse, Derivative is its true derivative, and Evaluate(-x)=1-Evaluate(x).", "quantifier": "all real x, all y in (0,1)", "why_tests_cant": "analytic identities over all reals", "anchors": ["MParT/Sigmoid.h: SigmoidTypeSpace::Logistic"]}
{"id": "C24", "title": "A multivariate expansion evaluates sum_k c_k prod_j phi_{alpha_kj}(x_j) using only cache entries it has filled", "statement": "For every compressed multi-index set, coefficient vector and point, FillCache followed by Evaluate returns sum_k c_k prod_j phi_{alpha_kj}(x_j) provided phi_0=1 (sparse storage drops degree-zero factors); every cache position read lies inside CacheSize() and was written by the matching FillCache call; the per-dimension segments never overlap.", "quantifier": "all multi-index sets, dimensions, coefficients, points and bases", "why_tests_cant": "offset arithmetic for all dimension/degree combinations; a stray read returns plausible numbers", "anchors": ["MParT/MultivariateExpansionWorker.h: FillCache1, FillCache2, Evaluate, CacheSize"]}
{"id": "C25", "title": "Expansion derivative routines are the true partial derivatives of the expansion", "statement": "DiagonalDerivative(order 1,2), CoeffDerivative, InputDerivative, MixedInputDerivative and MixedCoeffDerivative return the corresponding first and second partial derivatives of Evaluate with respect to the last input, the coefficients, all inputs, and mixed, for every multi-index set and point.", "quantifier": "all multi-index sets, coefficients, points", "why_tests_cant": "product-rule bookkeeping over every sparsity pattern", "anchors": ["MParT/MultivariateExpansionWorker.h: DiagonalDerivative, CoeffDerivative, InputDerivative, MixedInputDerivative, MixedCoeffDerivative"]}
{"id": "C26", "title": "The Clenshaw-Curtis rule has positive weights, sums to the interval length and is exact for polynomials below its size", "statement": "For every n>=1 the n-point rule has nodes in [-1,1] in increasing order and symmetric, strictly positive weights summing to 2, and integrates every polynomial of degree < n exactly.", "quantifier": "all rule sizes n, all polynomials of degree < n", "why_tests_cant": "tests use a few rule sizes and integrands; exactness is an identity for each n and each polynomial", "anchors": ["MParT/Quadrature.h: ClenshawCurtisQuadrature::GetRule, Integrate"]}
{"id": "C27", "title": "Adaptive Simpson terminates, partitions the interval and never leaves its workspace", "statement": "For every integrand, interval, tolerance and every maxSub from 1 to 32 with minSub<maxSub, AdaptiveSimpson::Integrate terminates, every workspace access lies inside WorkspaceSize(), and the result is the sum, left to right, of Simpson estimates over a bisection partition of [lb,ub] in which every leaf of depth d>=minSub met the tolerance or has depth maxSub-1.", "quantifier": "all integrands, intervals, tolerances, maxSub, minSub", "why_tests_cant": "the iterative walk with a bit-encoded path is a hand-coded recursion elimination; correctness is over all refinement trees", "anchors": ["MParT/Quadrature.h: AdaptiveSimpson::Integrate, UpdateValues, WorkspaceSize"]}
{"id": "C28", "title": "Adaptive Clenshaw-Curtis terminates, partitions the interval and never leaves its workspace", "statement": "For every integrand, interval, tolerance and every maxSub from 1 to 32 with minSub<maxSub, AdaptiveClenshawCurtis::Integrate terminates, every workspace access lies inside WorkspaceSize(), and the result is the sum of fine-rule estimates over a bisection partition of [lb,ub].", "quantifier": "all integrands, intervals, tolerances, maxSub, minSub, levels", "why_tests_cant": "same recursion elimination with another layout", "anchors": ["MParT/Quadrature.h: AdaptiveClenshawCurtis::Integrate, UpdateValues, WorkspaceSize"]}
{"id": "C29", "title": "Quadrature respects orientation of the interval", "statement": "Integrate over [b,a] is minus Integrate over [a,b] for every integrand. (ClenshawCurtisQuadrature tests ub-lb against a small positive threshold without absolute value, so every reversed interval falls back to the midpoint rule.)", "quantifier": "all integrands and intervals", "why_tests_cant": "monotone components integrate from 0 to x_d, which is reversed for all negative x_d if integrated directly; one needs all integrands", "anchors": ["MParT/Quadrature.h: ClenshawCurtisQuadrature::Integrate"]}
{"id": "C30", "title": "Bracketing finds an interval that contains the root for every increasing function whose range contains the target, or reports failure", "statement": "For every continuous strictly increasing f, target y and starting point: if FindBracket reports success then f(lb)<=y<=f(ub) and lb<ub; if the target is within reach of 2^128 times the step it reports success unless the function is flat; it always terminates.", "quantifier": "all increasing functions, targets and starting points", "why_tests_cant": "unbounded function space", "anchors": ["MParT/Utilities/RootFinding.h: FindBracket"]}
{"id": "C31", "title": "The bracketed inverse terminates and returns a point within tolerance of the true root", "statement": "For every continuous strictly increasing f, target y, positive tolerances and successful bracket, InverseSingleBracket keeps f(lb)<=y<=f(ub) at every iteration, terminates after a number of iterations bounded by ceil(log2(width/(2 xtol)))+a constant, and the returned x satisfies |f(x)-y|<ftol or |x-root|<=xtol.", "quantifier": "all increasing functions, targets, tolerances", "why_tests_cant": "the ITP projection mixes regula falsi with bisection; minmax termination is a statement about all functions", "anchors": ["MParT/Utilities/RootFinding.h: Find_x_ITP, InverseSingleBracket"]}
{"id": "C32", "title": "The monotone component's integrand derivative outputs are consistent with its value", "statement": "For every expansion, bijector, nugget and quadrature node, the parameter, input, mixed and diagonal components produced by MonotoneIntegrand are the derivatives of its value component x_d*(g(d f)+nugget) with respect to the coefficients, the inputs and x_d.", "quantifier": "all expansions, points, coefficients, nuggets", "why_tests_cant": "chain-rule identities over all inputs", "anchors": ["MParT/MonotoneIntegrand.h: operator()"]}
{"id": "C33", "title": "A monotone component is strictly increasing in its last input", "statement": "For every coefficient vector and fixed leading inputs, Evaluate is strictly increasing in the last input. (It holds for the exact integral. It fails for the quadrature-discretised value the code returns: a one-point rule with the exponential bijector and a quadratic expansion is decreasing for sufficiently negative x.)", "quantifier": "all coefficients, all inputs, all quadrature rules", "why_tests_cant": "monotonicity quantifies over all pairs of inputs and all coefficients", "anchors": ["MParT/MonotoneComponent.h: EvaluateSingle, EvaluateImpl"]}
{"id": "C34", "title": "The reported diagonal derivative is positive and the log determinant is its logarithm", "statement": "ContinuousDerivative is strictly positive for every input and coefficient vector, and LogDeterminant equals its logarithm and is therefore finite.", "quantifier": "all inputs and coefficients", "why_tests_cant": "positivity for all inputs", "anchors": ["MParT/MonotoneComponent.h: ContinuousDerivative, LogDeterminantImpl"]}
{"id": "C35", "title": "Discrete derivative, coefficient Jacobian and input Jacobian differentiate the same function that Evaluate returns", "statement": "For every fixed quadrature rule, DiscreteDerivative, CoeffJacobian and InputJacobian return the partial derivatives of what Evaluate returns. (With a non-zero nugget they differentiate T(x)+nugget*x_d while Evaluate returns T(x).)", "quantifier": "all rules, inputs, coefficients, nuggets", "why_tests_cant": "identity of functions", "anchors": ["MParT/MonotoneComponent.h: EvaluateImpl, DiscreteDerivative, CoeffJacobian, InputJacobian"]}
{"id": "C36", "title": "Inverse and Evaluate of a monotone component are mutually inverse up to tolerance", "statement": "For every component whose Evaluate is continuous and strictly increasing in the last input, Inverse(x1,Evaluate(x1,x_d)) is within the tolerance of x_d. (Inverse solves with the nugget term and Evaluate omits it, so this fails whenever nugget is non-zero and x_d is not zero.)", "quantifier": "all inputs, all nuggets", "why_tests_cant": "round trip over all inputs", "anchors": ["MParT/MonotoneComponent.h: InverseImpl, EvaluateImpl"]}
{"id": "C37", "title": "A triangular map has triangular structure and its block outputs are the components' outputs", "statement": "For every list of components accepted by the constructor, output block i of Evaluate equals component i applied to the first inputDim_i inputs and does not depend on later inputs; LogDeterminant is the sum of the components'; dimensions and coefficient counts add up.", "quantifier": "all component lists, all inputs", "why_tests_cant": "any number of components of any block sizes", "anchors": ["src/TriangularMap.cpp: TriangularMap, EvaluateImpl, LogDeterminantImpl"]}
{"id": "C38", "title": "Triangular inversion inverts triangular evaluation", "statement": "If every component inverts exactly given its leading inputs, then for every x, Inverse(x_prefix,Evaluate(x)) returns the trailing inputs of x, and Evaluate([x_prefix;Inverse(x_prefix,r)])=r; the in-place buffer never overwrites data still needed.", "quantifier": "all component lists, inputs and targets", "why_tests_cant": "induction over an arbitrary number of blocks with an aliasing buffer", "anchors": ["src/TriangularMap.cpp: InverseImpl, InverseInplace"]}
{"id": "C39", "title": "Triangular gradients satisfy the chain rule", "statement": "Gradient(x,s) is the sum over blocks of the components' gradients placed at their input positions; CoeffGrad(x,s) is the concatenation of the components' coefficient gradients; LogDeterminantCoeffGrad and LogDeterminantInputGrad are the concatenation and sum of the components'. (LogDeterminantInputGrad reuses one buffer; a component whose routine leaves the buffer untouched, such as AffineMap, adds the previous component's gradient again.)", "quantifier": "all component lists, inputs, sensitivities", "why_tests_cant": "any number of blocks; the defect needs a specific mix of component classes", "anchors": ["src/TriangularMap.cpp: GradientImpl, CoeffGradImpl, LogDeterminantCoeffGradImpl, LogDeterminantInputGradImpl", "src/AffineMap.cpp: LogDeterminantInputGradImpl"]}
{"id": "C40", "title": "A composed map is the composition of its layers", "statement": "Evaluate of ComposedMap([T1..Tn]) is Tn(...T1(x)), Inverse is T1^-1(...Tn^-1(r)) and is a two-sided inverse when the layers' are, LogDeterminant is the sum of the layers' log determinants at the intermediate points.", "quantifier": "all layer lists, all inputs", "why_tests_cant": "any number of layers", "anchors": ["src/ComposedMap.cpp: EvaluateImpl, InverseImpl, LogDeterminantImpl"]}
{"id": "C41", "title": "Checkpointing never changes results and never stores more than the allowed number of states", "statement": "For every number of layers, every maxChecks>=1, and every sequence of layer-input queries, the checkpointer returns exactly the composition of the preceding layers at the input, never holds more than maxChecks saved states and never indexes out of range.", "quantifier": "all layer counts, checkpoint budgets and query sequences", "why_tests_cant": "the reachable checkpoint stacks depend on the whole query history and binomial schedule", "anchors": ["src/ComposedMap.cpp: Checkpointer::GetNextCheckpoint, GetLayerInput"]}
{"id": "C42", "title": "Composed-map gradients satisfy the chain rule for any checkpoint budget", "statement": "Gradient, CoeffGrad and LogDeterminantCoeffGrad/InputGrad of a composed map are the reverse-mode chain-rule combination of the layers' routines, independent of the checkpoint budget. (The log-determinant gradients reuse a swapped buffer; a layer whose routine leaves the output untouched, such as AffineMap, makes a stale sensitivity be added again.)", "quantifier": "all layer lists, inputs, sensitivities, budgets", "why_tests_cant": "any number of layers; the defect needs an affine layer before the last", "anchors": ["src/ComposedMap.cpp: GradientImpl, CoeffGradImpl, LogDeterminantCoeffGradImpl, LogDeterminantInputGradImpl"]}
{"id": "C43", "title": "Identity, affine and summarised maps meet the conditional-map contract", "statement": "IdentityMap, AffineMap (with invertible trailing block) and SummarizedMap: Evaluate and Inverse are mutually inverse in the trailing inputs, LogDeterminant is the log absolute determinant of the trailing Jacobian block, and Gradient is the transposed Jacobian applied to the sensitivity.", "quantifier": "all dimensions, matrices, offsets, inputs", "why_tests_cant": "linear-algebra identities for all sizes", "anchors": ["src/IdentityMap.cpp", "src/AffineMap.cpp", "src/SummarizedMap.cpp"]}
{"id": "C44", "title": "No evaluation ever uses missing or wrongly sized coefficients", "statement": "On every history of SetCoeffs/WrapCoeffs calls, each public evaluation call either throws or runs with a coefficient vector of exactly numCoeffs entries.", "quantifier": "all histories of coefficient-setting calls with arbitrary sizes", "why_tests_cant": "quantifies over histories, including failed calls", "anchors": ["src/ParameterizedFunctionBase.cpp: SetCoeffs, WrapCoeffs, CheckCoefficients"]}
{"id": "C45", "title": "The coefficients a map reports are the ones its evaluations use", "statement": "After any history of SetCoeffs/WrapCoeffs on a triangular or composed map and on its components, evaluation uses exactly the slices of the parent's Coeffs(). (Fails when a component object is shared between two maps or appears twice: the component is re-pointed to the last writer's slice.)", "quantifier": "all histories over all maps sharing components", "why_tests_cant": "aliasing defects need several objects and a particular order of calls", "anchors": ["src/TriangularMap.cpp: SetCoeffs, WrapCoeffs", "src/ComposedMap.cpp: SetCoeffs, WrapCoeffs", "src/ParameterizedFunctionBase.cpp"]}
{"id": "C46", "title": "SetCoeffs copies: later changes to the caller's array do not change the map, and the call changes nothing else", "statement": "SetCoeffs(c) makes Coeffs() equal c, later writes to the caller's c do not change it, and no array owned by another object changes. (After WrapCoeffs(u), SetCoeffs(c) overwrites the caller's wrapped array u.)", "quantifier": "all histories", "why_tests_cant": "aliasing over histories", "anchors": ["src/ParameterizedFunctionBase.cpp: SetCoeffs, WrapCoeffs"]}
{"id": "C47", "title": "CreateSingleEntryMap is the identity in every coordinate but one", "statement": "For every dim, activeInd and component with inputDim = activeInd, the map returned by CreateSingleEntryMap(dim,activeInd,comp) satisfies T_j(x)=x_j for j != activeInd and T_activeInd(x)=comp(x_1..x_activeInd).", "quantifier": "all dims, active indices, components", "why_tests_cant": "three assembly cases over all sizes", "anchors": ["src/MapFactory.cpp: CreateSingleEntryMap"]}
{"id": "C48", "title": "Pullback and pushforward densities satisfy the change-of-variables formulas and are mutually inverse", "statement": "PullbackDensity(T,p).LogDensity(x)=log p(T(x))+log|det T'(x)|; PushforwardDensity(T,p).LogDensity(y)=log p(T^-1(y))-log|det T'(T^-1(y))|; the pullback by T of the pushforward by T of p is p, and conversely; their samplers apply Inverse and Evaluate to the reference samples.", "quantifier": "all maps with exact inverse, all densities, all points", "why_tests_cant": "identities over all maps and densities", "anchors": ["MParT/Distributions/PullbackDensity.h", "MParT/Distributions/PushforwardDensity.h", "MParT/Distributions/PullbackSampler.h", "MParT/Distributions/PushforwardSampler.h"]}
{"id": "C49", "title": "Pullback density gradients are the derivatives of the pullback log density", "statement": "LogDensityInputGrad and LogDensityCoeffGrad of a pullback density are the chain-rule combinations of the reference gradient and the map's gradients. (The Eigen overload of LogDensityCoeffGrad calls the input-gradient routine.)", "quantifier": "all maps, densities, points", "why_tests_cant": "identity for all inputs; overload-specific defect", "anchors": ["MParT/Distributions/PullbackDensity.h", "src/Distributions/PullbackDensity.cpp"]}
{"id": "C50", "title": "The Gaussian log density and its gradient are those of the stated mean and covariance", "statement": "For every mean and positive definite covariance, LogDensity is the normal log density and LogDensityInputGrad is its gradient.", "quantifier": "all dimensions, means, covariances, points", "why_tests_cant": "identity for all inputs", "anchors": ["src/Distributions/GaussianSamplerDensity.cpp"]}
{"id": "C51", "title": "The KL training objective and its gradient are consistent and invariant to sample order", "statement": "The objective is minus the average pullback log density over the training samples and the gradient written is minus the average of the coefficient gradients; both are unchanged by permuting the samples.", "quantifier": "all sample sets, maps, densities", "why_tests_cant": "any number of samples", "anchors": ["src/MapObjective.cpp: KLObjective"]}
{"id": "C52", "title": "Adaptive training terminates, respects maxSize, and returns the best map it found", "statement": "For every objective and optimiser behaviour, the adaptive loop stops, the working sets never exceed max(initial size,maxSize) coefficients, and the returned sets are those with the smallest test error seen. (The best sets are initialised to constant-only sets, not to the initial guess, so the last part fails when no step improves on the initial error.)", "quantifier": "all objectives, optimiser outcomes, initial sets, options", "why_tests_cant": "the loop's behaviour depends on an arbitrary oracle sequence of errors and gradients", "anchors": ["src/TrainMapAdaptive.cpp: TrainMapAdaptive, findMaxGrad"]}
{"id": "C53", "title": "Adaptive training adds the candidate with the largest gradient", "statement": "Whenever at least one candidate term exists the loop adds an admissible candidate whose gradient magnitude is maximal. (With all candidate gradients zero, or all candidates filtered out, the selected index is never assigned and is read uninitialised.)", "quantifier": "all gradients and candidate sets", "why_tests_cant": "needs the all-zero and empty corner cases and arbitrary gradients", "anchors": ["src/TrainMapAdaptive.cpp: findMaxGrad"]}
{"id": "C54", "title": "Saving and loading reproduces the object", "statement": "Reading back an archive written by save for vectors, matrices, MultiIndexSet in fixed form, and map options yields equal values and consumes exactly the bytes written, so several objects in one archive do not interfere.", "quantifier": "all contents and sizes, all following archive contents", "why_tests_cant": "round trip for all sizes and contents", "anchors": ["MParT/Utilities/Serialization.h", "MParT/MultiIndices/FixedMultiIndexSet.h: save, load", "MParT/MapOptions.h: serialize"]}
{"id": "C55", "title": "Results for a batch of points do not depend on how points are scheduled on threads", "statement": "For every interleaving of the per-point work items of the parallel loops that evaluate an expansion or monotone component, the output matrix is the same, and column j depends only on point j.", "quantifier": "all schedules/interleavings, all batches", "why_tests_cant": "a data race shows only under particular schedules", "anchors": ["MParT/MonotoneComponent.h: EvaluateImpl", "MParT/MultivariateExpansion.h: EvaluateImpl"]}
{"id": "C56", "title": "One-dimensional sigmoid expansions receive points and sensitivities in the order the base class passes them", "statement": "Gradient(pts,sens) of Sigmoid1d-based functions equals derivative at pts times sens. (The overrides name their first two parameters in the opposite order of the base class, so points and sensitivities are exchanged.)", "quantifier": "all points and sensitivities", "why_tests_cant": "symmetric test data hide the exchange", "anchors": ["MParT/Sigmoid.h: Sigmoid1d::GradientImpl, CoeffGradImpl", "MParT/ParameterizedFunctionBase.h"]}
{"id": "C57", "title": "A tensor-product function is the product of its factors with the coefficient vector split between them", "statement": "Evaluate equals f1(x1;c1)*f2(x2;c2) where c1 is the first NumCoeffs(f1) coefficients and c2 the rest. (The code splits by input dimension instead of coefficient count.)", "quantifier": "all factor functions, dimensions, coefficient counts", "why_tests_cant": "wrong only when coefficient counts differ from dimensions", "anchors": ["MParT/TensorProductFunction.h"]}
{"id": "C58", "title": "Neighbour queries return exactly the neighbours they name", "statement": "For an active multi-index m of a reachable set: NumForward counts the limiter-accepted forward neighbours of m, NumActiveForward the active ones, AdmissibleForwardNeighbors lists the accepted forward neighbours that are active or have only active backward neighbours, IsExpandable tells whether an inactive one exists, and in a downward closed set BackwardNeighbors returns exactly the indices of the backward neighbours. (In a set that is not downward closed BackwardNeighbors returns -1 converted to unsigned for inactive neighbours.)", "quantifier": "all reachable sets and members", "why_tests_cant": "depends on the neighbour graph being complete after every history", "anchors": ["src/MultiIndices/MultiIndexSet.cpp: NumForward, NumActiveForward, AdmissibleForwardNeighbors, IsExpandable, BackwardNeighbors"]}
{"id": "C59", "title": "Mutating calls on a reachable set succeed or throw as documented, and never run into undefined behaviour", "statement": "On every reachable set AddActive succeeds (returning -1 exactly for rejected multi-indices), Expand succeeds exactly for valid indices, Activate succeeds exactly for admissible multi-indices, and ForciblyActivate throws exactly for rejected multi-indices and otherwise activates the multi-index together with all accepted backward neighbours of everything it adds. (ForciblyActivate iterates over a reference into a vector that its recursive calls reallocate.)", "quantifier": "all reachable sets, all arguments of the right length", "why_tests_cant": "undefined behaviour appears only for certain sizes and standard library growth policies", "anchors": ["src/MultiIndices/MultiIndexSet.cpp: AddActive, Activate, Expand, ForciblyActivate, ForciblyExpand"]}
{"id": "C60", "title": "An expansion built on an uncompressed fixed set gives the same values as on the compressed one", "statement": "Evaluating a multivariate expansion built from Fix(false) of a multi-index set gives the same value, at every point and coefficient vector, as the expansion built from Fix(true) of the same set. (The uncompressed form leaves the last term offset at zero, so the factors of the last term are skipped.)", "quantifier": "all sets, points and coefficients", "why_tests_cant": "agrees whenever the last coefficient is zero or the last term is constant", "anchors": ["MParT/MultivariateExpansionWorker.h: Evaluate", "src/MultiIndices/FixedMultiIndexSet.cpp: SetupTerms", "src/MultiIndices/MultiIndexSet.cpp: Fix"]}
{"id": "C61", "title": "The bracketed inverse evaluates the function only inside its bracket", "statement": "Once a bracket is known, InverseSingleBracket calls the function only at points between its ends. (The secant point is computed for the root of f instead of f-y, so trial points may lie outside; the bracket then grows.)", "quantifier": "all increasing functions, targets, tolerances", "why_tests_cant": "with targets near zero the trial points stay inside", "anchors": ["MParT/Utilities/RootFinding.h: Find_x_ITP, InverseSingleBracket"]}
{"id": "C62", "title": "The log determinant's gradients differentiate the reported log determinant", "statement": "For a monotone component, LogDeterminantCoeffGrad returns the partial derivatives, with respect to the coefficients, of what LogDeterminant returns, and LogDeterminantInputGrad those with respect to the inputs. In discrete-derivative mode LogDeterminantInputGrad throws, and LogDeterminantCoeffGrad adds a multiple of the previous contents of its output array.", "quantifier": "all expansions, points, coefficients; continuous and discrete modes", "why_tests_cant": "identity of functions over all inputs; tests use zeroed outputs", "anchors": ["MParT/MonotoneComponent.h: LogDeterminantImpl, LogDeterminantCoeffGradImpl, LogDeterminantInputGradImpl, ContinuousMixedJacobian, ContinuousMixedInputJacobian, DiscreteMixedJacobian"]}
{"id": "C63", "title": "Component gradients are sensitivity-weighted Jacobians", "statement": "For a monotone component and a sensitivity s, Gradient and CoeffGrad return the partial derivatives of s*(T(x)+nugget*x_d) with respect to the inputs and the coefficients, T being the map Evaluate returns, whatever the previous contents of the output arrays.", "quantifier": "all expansions, points, coefficients, sensitivities, output contents", "why_tests_cant": "identity of functions over all inputs", "anchors": ["MParT/MonotoneComponent.h: GradientImpl, CoeffGradImpl, InputJacobian, CoeffJacobian"]}
{"id": "C64", "title": "The factories build the map their options describe", "statement": "CreateComponent, CreateTriangular and CreateExpansion accept every combination of basis, bounds, positive function and quadrature and return a map whose values and derivatives are those of the one-dimensional functions, link function, quadrature rule and nugget named in the options, with multi-index sets of the requested order; invalid options or dimensions are rejected with an exception.", "quantifier": "all options, dimensions, orders, points and coefficients", "why_tests_cant": "36 registered combinations times all parameters; a test compares a few", "anchors": ["MParT/MapFactory.h: GetFactoryFunction, CreateComponent, CreateTriangular, CreateExpansion", "src/MapFactory.cpp", "src/MapFactoryImpl1.cpp ... src/MapFactoryImpl18.cpp", "MParT/MapOptions.h"]}
{"id": "C65", "title": "Samplers draw what their distribution says, and SetSeed makes them reproducible", "statement": "Sample(N) of a Gaussian returns mean + L z for N vectors z of independent generator draws, L being a Cholesky factor of the covariance; Sample(N) of a pullback (pushforward) sampler returns the inverse images (images) of N samples of its reference; after SetSeed(s) the samples are the same whatever was done with the samplers before, including samplers that share the reference; constructors reject maps and densities of other dimensions. (Sample allocates row-major arrays, which the dense Gaussian sampler refuses; with several threads the samples also depend on which thread serves which entry.)", "quantifier": "all covariances, maps, chains of samplers, histories of calls, orders of the parallel loops", "why_tests_cant": "all histories and schedules; the tests call SampleImpl with column-major arrays only", "anchors": ["MParT/Distributions/SampleGenerator.h", "src/Distributions/GaussianSamplerDensity.cpp: SampleImpl", "MParT/Distributions/PullbackSampler.h", "MParT/Distributions/PushforwardSampler.h", "MParT/Distributions/Distribution.h"]}
{"id": "C66", "title": "TrainMap reports the coefficients it leaves in the map", "statement": "TrainMap starts from the map's coefficients, or from all ones if none were set; every evaluation the optimiser requests is answered with the true objective and gradient at the requested coefficients; afterwards the map has the optimiser's final coefficients, and if the optimiser reports a value it was given for these, the returned error is TrainError of the map. If the optimiser throws, the map is left with the last coefficients that were evaluated.", "quantifier": "all maps, objectives, initial coefficients and optimiser behaviours that end", "why_tests_cant": "an optimiser may query any points in any number; tests run one algorithm on one problem", "anchors": ["src/TrainMap.cpp: TrainMap", "MParT/TrainMap.h", "src/MapObjective.cpp: operator()"]}
{"id": "C67", "title": "Array conversions show the same entries", "statement": "Wrapping an Eigen matrix or vector (any storage order and strides), a std::vector, a raw pointer or a (pointer, shape, strides) tuple as a Kokkos view, and a view as an Eigen map, gives an array of the same shape whose entry (i,j) is the same memory cell; converting there and back changes nothing. Wrapping constant Eigen references ignores the outer stride, so blocks of wider matrices show wrong entries; wrapping a std::vector as a matrix with zero columns divides by zero.", "quantifier": "all shapes, strides, layouts, and build modes", "why_tests_cant": "all strides and shapes; tests use a few packed matrices", "anchors": ["MParT/Utilities/ArrayConversions.h: ToKokkos, KokkosToStd, VecToKokkos, MatToKokkos, ConstRowMatToKokkos, ConstColMatToKokkos, KokkosToVec, KokkosToMat, ConstKokkosToMat"]}
{"id": "C68", "title": "Overloads for Eigen matrices give the results of the overloads for arrays", "statement": "Evaluate, Gradient, CoeffGrad, Inverse, LogDeterminant and its gradients return, for an Eigen matrix, the entries the overload for Kokkos arrays returns for the array with these entries. (Blocks of wider matrices are read wrongly; the gradient of affine maps multiplies uninitialised memory by zero, which keeps NaN.)", "quantifier": "all maps, coefficients, matrices and contents of uninitialised memory", "why_tests_cant": "uninitialised memory and every stride; tests use packed matrices in fresh processes", "anchors": ["src/ParameterizedFunctionBase.cpp: Evaluate, Gradient, CoeffGrad", "src/ConditionalMapBase.cpp: LogDeterminant, Inverse, LogDeterminantCoeffGrad, LogDeterminantInputGrad", "src/AffineMap.cpp: GradientImpl"]}
{"id": "C69", "title": "Matrix products and sums are those of the arrays' entries", "statement": "dgemm sets C to beta C + alpha op(A) op(B), operator* returns op(A) op(B) and x += y adds entry by entry, for arrays of any layout, strides and transposition, changing no other memory; the factors may share memory with C, and for sums, y may be x or share nothing with it, in every interleaving of the parallel loop. (When y overlaps x partly, the result depends on the schedule.)", "quantifier": "all shapes, strides, aliasing and schedules", "why_tests_cant": "all layouts and interleavings", "anchors": ["MParT/Utilities/LinearAlgebra.h: AddInPlace, TransposeObject, transpose, operator*, dgemm", "src/Utilities/LinearAlgebra.cpp: dgemm"]}
{"id": "C70", "title": "In double precision the positive functions stay positive and the logistic function stays in (0,1)", "statement": "SoftPlus and Exp return finite positive doubles for finite arguments, so that reported diagonal derivatives are positive and their logarithms finite; SoftPlus is close to ln(1+exp(x)); the logistic function returns a number between 0 and 1 that its Inverse brings back. (SoftPlus is exactly zero from -37 downwards, Exp from -750, and the logistic function exactly one from 40 upwards.)", "quantifier": "all finite doubles, all C libraries whose exp, log and tanh are within one unit in the last place", "why_tests_cant": "all 2^64 arguments and all libraries; tests use arguments of moderate size", "anchors": ["MParT/PositiveBijectors.h: SoftPlus, Exp", "MParT/Sigmoid.h: Logistic", "MParT/MonotoneComponent.h: LogDeterminantImpl"]}
{"id": "C71", "title": "Initialisation is idempotent and the runtime is shut down once", "statement": "mpart::Initialize may be called any number of times, with any arguments and from any thread: the Kokkos runtime is started exactly once, with the arguments of the first call, and stopped exactly once at the end of the process; every later call prints a warning unless MPART_WARNINGS is off in any capitalisation. The bindings hand over --key=value for every option. (Two threads making the first call, a program that started Kokkos itself, and an explicit mpart::Finalize break this; the Julia wrapper reads past the end of an odd number of strings.)", "quantifier": "all sequences of calls, arguments, values of the variable, and interleavings of threads", "why_tests_cant": "all histories and interleavings; the test program calls it once", "anchors": ["MParT/Initialization.h: Initialize, InitializeStatus", "src/Initialization.cpp: Finalize", "bindings/common/src/CommonUtilities.cpp", "bindings/python/src/CommonPybindUtilities.cpp", "bindings/julia/src/CommonJuliaUtilities.cpp: makeInitArguments"]}
{"id": "C72", "title": "Components with adaptive quadrature: values, derivatives and monotonicity", "statement": "With adaptive Simpson or adaptive Clenshaw-Curtis quadrature Evaluate returns the fine estimates on the intervals into which [0,1] is halved until coarse and fine estimates agree to the tolerances; the derivative routines return the derivatives of what Evaluate returns; and the map is increasing in its last argument. (The derivative routines differentiate with the intervals kept fixed, which is the derivative of Evaluate where no estimate meets its tolerance exactly and there is no nugget; elsewhere Evaluate jumps, and it can jump down.)", "quantifier": "all dimensions, bases, multi-index sets, positive functions, tolerances, limits, points and coefficients", "why_tests_cant": "all tolerances and points, including those where the choice of intervals changes; tests use a few points and compare with finite differences away from the jumps", "anchors": ["MParT/MonotoneComponent.h: EvaluateImpl, DiscreteDerivative, CoeffJacobian, InputJacobian, LogDeterminantImpl", "MParT/Quadrature.h: AdaptiveSimpson, AdaptiveClenshawCurtis, RecursiveQuadratureBase"]}
{"id": "C73", "title": "Inverting with floating-point numbers and NaNs", "statement": "With double precision arithmetic Inverse of a nondecreasing component returns, for every finite target, NaN or a number whose value meets the tolerance or that lies between two points enclosing the target and closer than the tolerances; a failure is flagged (info different from 0, or NaN); and NaN arguments give NaN. (The flag for running out of iterations is never set, and a NaN target gives an ordinary number.)", "quantifier": "all functions of doubles, targets, starting points, tolerances and C libraries", "why_tests_cant": "all doubles including infinities and NaN, where rounding can stop the bracket from shrinking; tests use a few well-scaled values", "anchors": ["MParT/Utilities/RootFinding.h: FindBracket, Find_x_ITP, InverseSingleBracket", "MParT/MonotoneComponent.h: InverseImpl"]}
{"id": "C74", "title": "Calls on one component from several threads", "statement": "Calls on one component object (values, inverses, derivatives, gradients), made one after the other or from several threads at once, return what each returns when made alone. (True for calls made in sequence, and at once for calls whose integrands have equally many entries, such as values and inverses. Values together with derivatives or gradients can write outside the result or return uninitialised memory, because each call sets the number of entries in the shared quadrature object.)", "quantifier": "all numbers of threads, lists of calls per thread, arguments and interleavings", "why_tests_cant": "all interleavings; a data race shows up in a test only by luck and the tests call from one thread", "anchors": ["MParT/MonotoneComponent.h: EvaluateImpl, InverseImpl, DiscreteDerivative, CoeffJacobian, InputJacobian, DiscreteMixedJacobian", "MParT/Quadrature.h: QuadratureBase::SetDim, WorkspaceSize"]}
{"id": "C75", "title": "PyTorch layers", "statement": "A layer made with map.torch() and its autograd function return the map's values (and log determinants) at the given points with the given coefficients, and the backward pass returns the gradients of the weighted sum of outputs with respect to the points and the coefficients, evaluated at the points and coefficients of that forward pass, whatever other passes, layers or tensors were used in between, or raises an error. The inverse solves for the trailing inputs; wrong shapes raise an error. (False after map.SetCoeffs, which overwrites the layer's tensor unnoticed; without coefficients, where the backward pass uses the coefficients of the latest pass; with log determinants of discretised derivatives. After a pass with float32 coefficients a direct call of the map reads freed memory.)", "quantifier": "all maps, points, coefficients, weights, dtypes, and all programs of passes, tensor updates and deletions between forward and backward", "why_tests_cant": "all histories between the two passes and all inputs; gradient checks test a few points right after the forward pass", "anchors": ["bindings/python/package/torch.py: TorchParameterizedFunctionBase, TorchConditionalMapBase", "bindings/python/package/torch_helpers.py: MpartTorchAutograd, ExtractTorchTensorData", "bindings/python/src/ParameterizedFunctionBase.cpp: WrapCoeffs", "src/ParameterizedFunctionBase.cpp: WrapCoeffs, SetCoeffs, CheckCoefficients"]}
{"id": "C76", "title": "Multi-indices and their sets are sequences in Python and Julia", "statement": "In Python, m[i] and m[i] = x for 0 <= i < len(m) read and write entry i of a MultiIndex and any other index raises; a for loop over a MultiIndex visits its entries and nothing else, and reversed(m) visits them backwards. A for loop over a MultiIndexSet visits every member once in the order of IndexToMulti, x in s is membership, s[i] raises outside the set, and reversed(s) is the loop backwards. In Julia m[1] to m[length(m)] are the entries and other indices throw. A FixedMultiIndexSet built from numpy arrays answers as the C++ object built from their values, whatever the program does with the arrays afterwards. (False at one index: m[len(m)] is accepted, so every for loop over a MultiIndex ends with a 0 that is not an entry, 0 in m is always true, and m[len(m)] = x makes tolist() write out of bounds. len(s) of a set is the dimension, so reversed(s) visits the first d members, or none when there are fewer. FixedMultiIndexSet(dim, orders) keeps a view of a temporary that is gone when the constructor returns: every IndexToMulti reads released memory.)", "quantifier": "all multi-indices, all sets reachable by any history of calls, all integer indices, all programs after the construction of a fixed set", "why_tests_cant": "the loop protocol relies on which index raises first; reading released memory usually returns the old values in a test, and only later allocations change them", "anchors": ["bindings/python/src/MultiIndex.cpp: MultiIndexWrapper", "bindings/julia/src/MultiIndex.cpp: MultiIndexWrapper", "src/MultiIndices/MultiIndex.cpp: Get, Set", "MParT/MultiIndices/MultiIndexSet.h: at, Length, IndexToMulti", "MParT/Utilities/ArrayConversions.h: VecToKokkos", "src/MultiIndices/FixedMultiIndexSet.cpp: FixedMultiIndexSet"]}
{"id": "C77", "title": "Objectives and affine maps keep the arrays they were built from", "statement": "A training objective made by CreateGaussianKLObjective from arrays of samples answers every later TrainError, TestError, TrainCoeffGrad and TrainMap for the values those arrays had when it was made, whatever the program does with the arrays and with other objects afterwards: writes in place, releasing them, making and destroying more objectives. An AffineMap keeps its matrix and offset in the same way, from C++, Python, Julia and MATLAB. (True in Python and Julia, which copy. In C++ the objective keeps the views it is given: memory allocated by Kokkos stays alive but later writes change the objective, and other memory may be released under it. In MATLAB the objective keeps the address of MATLAB's own array: once the variable is cleared or goes out of scope every training call is undefined.)", "quantifier": "all worlds of arrays and objects, all sequences of allocations, writes, releases, constructions and destructions after the construction, all maps, coefficients and optimisers", "why_tests_cant": "reading released memory usually returns the old values in a test; the property is about every program that runs between construction and use", "anchors": ["bindings/matlab/src/MapObjective_mex.cpp: GaussianKLObjective_newTrain, GaussianKLObjective_newTrainTest", "bindings/matlab/src/MexArrayConversions.cpp: MexToKokkos2d", "bindings/python/src/MapObjective.cpp: CreateGaussianKLObjective", "bindings/julia/src/MapObjective.cpp: CreateGaussianKLObjective", "MParT/MapObjective.h: MapObjective", "src/AffineMap.cpp: AffineMap"]}
{"id": "C78", "title": "Options set in MATLAB, Python or Julia reach the library", "statement": "A program that fills in a MapOptions, TrainOptions or ATMOptions object in MATLAB, Python or Julia and uses it to build a map or a function, to train, to train adaptively or to save the options gets exactly these options in the library: every named choice, tolerance, bound and count it set last, and the documented default for what it did not set; values that are no valid option are refused; options can be saved and read back; an ATMOptions object can be used where MapOptions or TrainOptions are wanted; two option objects compare equal exactly when they ask for the same. (True in Python for every sequence of assignments, in Julia except below, and in MATLAB for maps, functions and TrainMap. Refuted: MATLAB drops the nugget of ATMOptions; replaces unknown names by defaults and cuts off fractions; cannot read saved options back; refuses ATMOptions as MapOptions or TrainOptions; its default TrainOptions limit evaluations to 30 and time to 100 s; its default ATMOptions ask for maximum degrees (0), with which TrainMapAdaptive refuses every map whose input dimension is not 1. Julia cannot set opt_stopval and opt_maxtime, turns negative limits into huge ones and accepts numbers that are no choice. ATMOptions compare equal in Python and Julia although their training options differ.)", "quantifier": "all contents of MATLAB option objects, all option values, all sequences of assignments including ones that fail, all maps, sets and worlds for the training that follows", "why_tests_cant": "a test sets a few options and sees no difference when one is dropped, since most have little effect on one map; the property is about every field, every value and every order of assignments", "anchors": ["bindings/matlab/src/MexOptionsConversions.cpp: MapOptionsFromMatlab, TrainOptionsFromMatlab, ATMOptionsFromMatlab, MapOptionsToMatlab", "bindings/matlab/src/ConditionalMap_mex.cpp: ConditionalMap_newMap, ConditionalMap_newTotalTriMap, ConditionalMap_TrainMap, ConditionalMap_TrainMapAdaptive", "bindings/matlab/src/ParameterizedFunctionBase_mex.cpp: ParameterizedFunction_newMap, MapOptions_Serialize, MapOptions_Deserialize", "bindings/matlab/mat/MapOptions/MapOptions.m", "bindings/matlab/mat/TrainOptions.m", "bindings/matlab/mat/ATMOptions.m", "bindings/python/src/MapOptions.cpp", "bindings/python/src/TrainMap.cpp", "bindings/python/src/TrainMapAdaptive.cpp", "bindings/julia/src/MapOptions.cpp", "bindings/julia/src/TrainMap.cpp", "bindings/julia/src/TrainMapAdaptive.cpp", "MParT/MapOptions.h: MapOptions"]}
{"id": "C79", "title": "Multi-indices and their sets count from 1 in MATLAB", "statement": "In MATLAB the members of a MultiIndexSet or FixedMultiIndexSet have the positions 1 to Size, and the entries of a MultiIndex the positions 1 to Length. IndexToMulti, at and braces give the same member for the same position, whatever integer or floating-point class the number has; MultiToIndex gives the position back; every position that a call reports (Expand, ForciblyExpand, ForciblyActivate, Frontier, StrictFrontier, BackwardNeighbors, AddActive) can be used in the other calls and names the member the C++ library means; numbers that are no position give an error; Fix keeps positions; s + t and DeepCopy give new sets; comparison operators compare multi-indices. (True for lookups with valid positions, for the growth and frontier calls, for Fix, sums, Get and Set, and for ==, ~=, < and >. Refuted: AddActive reports one less than the position; position 0 is undefined as a double and is the first member as an unsigned integer; braces with a number above Size read past the end, and drop what follows them, so s{k}.Vector() is not a vector; BackwardNeighbors reports 4294967295 for neighbours outside the set; DeepCopy always fails, and the copy it builds has the zero multi-index added and its members reordered; >= and <= compare object identities; a fixed set is undefined for numbers outside the range and for multi-indices it does not have.)", "quantifier": "all sets reachable by any history of calls, all numbers of every MATLAB integer class and all integer-valued doubles, all multi-indices, all pairs of objects", "why_tests_cant": "the off-by-one shifts have to agree between every pair of calls, for every number class and every set; the MATLAB tests only print results", "anchors": ["bindings/matlab/mat/MultiIndexSet.m: IndexToMulti, MultiToIndex, at, subsref, plus, AddActive, Expand, ForciblyExpand, ForciblyActivate, Frontier, StrictFrontier, BackwardNeighbors, DeepCopy, Fix", "bindings/matlab/mat/FixedMultiIndexSet.m: IndexToMulti, MultiToIndex", "bindings/matlab/mat/MultiIndex.m: Set, Get, eq, ne, lt, gt, Ge, Le", "bindings/matlab/src/MultiIndexSet_mex.cpp", "bindings/matlab/src/FixedMultiIndexSet_mex.cpp", "bindings/matlab/src/MultiIndex_mex.cpp", "bindings/matlab/external/mexplus/mexplus/mxarray.h: fromInternal, assignTo"]}
{"id": "C80", "title": "Calls with arrays of the documented sizes stay inside the arrays; wrong sizes are rejected", "statement": "For every map the constructors accept, however components, affine maps, identity maps, triangular maps, compositions and summarised maps are nested, and for every number of points including none: Evaluate, LogDeterminant, Inverse, Gradient, CoeffGrad and the two gradients of the log determinant, called with arrays of the documented numbers of rows and columns, read and write only entries of those arrays and return arrays of the documented sizes; arrays of other sizes are rejected with an exception. The same holds for the calls from MATLAB, which also rejects arrays that are complex or not double. (True for the documented sizes, with continuous derivatives where log determinants are differentiated, and with at least one point in MATLAB; the gradients of a component reject every other size. Refuted: the inverse of a component with one input, given the documented array with no rows, reads before the array; too few rows are not noticed by Evaluate, and the log determinant takes the last row given for x_d; too few sensitivities of a triangular map are not noticed; discretised components throw; in MATLAB the log determinant of no points writes one entry into an empty array, and the inverse does not compare numbers of columns.)", "quantifier": "all maps built by the constructors to any nesting depth, all numbers of points, all numbers of rows and columns of the arguments", "why_tests_cant": "the sizes of the inner arrays depend on the nesting of the map; a read outside an array usually goes unnoticed in a test", "anchors": ["MParT/ConditionalMapBase.h: LogDeterminant, Inverse, LogDeterminantCoeffGrad, LogDeterminantInputGrad", "MParT/ParameterizedFunctionBase.h: Evaluate, Gradient, CoeffGrad", "MParT/MonotoneComponent.h: EvaluateImpl, InverseImpl, LogDeterminantImpl, checkGradFunctionInput, GradientImpl, CoeffGradImpl", "src/AffineMap.cpp", "src/IdentityMap.cpp", "src/TriangularMap.cpp", "src/ComposedMap.cpp", "src/SummarizedMap.cpp", "bindings/matlab/mat/ConditionalMap.m", "bindings/matlab/src/ConditionalMap_mex.cpp", "bindings/matlab/src/MexArrayConversions.cpp: MexToKokkos1d, MexToKokkos2d"]}
{"id": "C81", "title": "Coefficients set from MATLAB are the numbers given", "statement": "In MATLAB, SetCoeffs with a vector of as many numbers as there are coefficients makes exactly these numbers the coefficients, whatever the class of the vector: Coeffs gives them back and evaluations use them. Vectors of other lengths are rejected and leave the coefficients as they were, and an evaluation before coefficients are set is an error, as in C++. (True for non-empty vectors of class double, bit for bit, and along any history in which the first vector fits. Refuted: single, 8-, 16- and 32-bit integers, logical and char are read past the end of the array; int64 and uint64 are accepted and v becomes v*2^-1074; an empty vector is read as one entry, so a map without coefficients cannot be given its empty vector; the first vector is accepted whatever its length, and an evaluation then reads past it or ignores its tail; evaluating without coefficients reads unallocated memory.)", "quantifier": "all maps and functions without parts, all vectors of every real MATLAB class, all double bit patterns, all histories of calls", "why_tests_cant": "a test tries a few doubles; the class of the array decides which bytes are read, and reads past the end usually go unnoticed", "anchors": ["bindings/matlab/mat/ConditionalMap.m: SetCoeffs, Coeffs, Evaluate", "bindings/matlab/mat/ParameterizedFunction.m: SetCoeffs, Coeffs, Evaluate", "bindings/matlab/src/ConditionalMap_mex.cpp: ConditionalMap_SetCoeffs, ConditionalMap_Coeffs, ConditionalMap_Evaluate", "bindings/matlab/src/ParameterizedFunctionBase_mex.cpp", "bindings/matlab/src/MexArrayConversions.cpp: MexToKokkos1d", "src/ParameterizedFunctionBase.cpp: SetCoeffs, CheckCoefficients"]}
{"id": "C82", "title": "Results in Julia do not depend on what the memory held before", "statement": "In Julia, Evaluate, LogDeterminant, Gradient, CoeffGrad, LogDeterminantCoeffGrad, LogDeterminantInputGrad and Inverse return, for each point, the value the map has mathematically, the same as in C++, whatever the freshly allocated result array contained and however many points there are. (Violated by LogDeterminantInputGrad of an affine map, which returns the uninitialised memory, and by results with 2^32 entries or more, which are written outside their allocation.)", "quantifier": "all nestings of identity, affine, monotone, summarised, triangular and composed maps, all coefficients, all numbers of points, all points and sensitivities of the right sizes, all contents of the memory that malloc returns", "why_tests_cant": "What malloc returns is usually zero in a short test, so a missing write goes unnoticed; a test runs with one memory content, a few maps and few points, and never with 2^32 entries.", "anchors": ["bindings/julia/src/ParameterizedFunctionBase.cpp: Evaluate, Gradient, CoeffGrad", "bindings/julia/src/ConditionalMapBase.cpp: LogDeterminant, LogDeterminantCoeffGrad, LogDeterminantInputGrad, Inverse", "bindings/julia/include/JlArrayConversions.h: jlMalloc", "src/AffineMap.cpp: LogDeterminantInputGradImpl", "src/ConditionalMapBase.cpp", "src/ParameterizedFunctionBase.cpp"]}
