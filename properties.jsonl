{"id": "C01", "title": "Limit order book never panics and stays consistent", "statement": "From Book::new(), any sequence of add_order, cancel_order and execute_market_order calls runs without panicking; afterwards every resting order id occurs exactly once in exactly one queue, namely the queue of its own side and limit price, every queued id has a stored order, and no price level is empty.", "quantifier": "every finite sequence of operations with arbitrary ids, sides, prices, sizes and timestamps", "why_tests_cant": "the lookups that can panic (missing level, missing id in a level) depend on the whole operation history, of which tests sample a handful", "anchors": ["crates/RustQuant_trading/src/limit_order_book.rs: Book::{new,add_order,cancel_order,execute_market_order}", "crates/RustQuant_trading/src/limit.rs: Limit::{cancel,execute}"]}
{"id": "C02", "title": "Price-time priority", "statement": "execute_market_order against any reachable book fills resting orders of the opposite side strictly in the order best price first and, within one price, earliest arrival first; the book afterwards is the book before minus exactly the consumed prefix of that order, with at most the last touched order partially filled.", "quantifier": "every reachable book, side and requested size", "why_tests_cant": "fairness of matching is a statement about all queue contents and all sizes", "anchors": ["crates/RustQuant_trading/src/limit_order_book.rs: Book::{new,add_order,cancel_order,execute_market_order}", "crates/RustQuant_trading/src/limit.rs: Limit::{cancel,execute}"]}
{"id": "C03", "title": "Market orders conserve shares", "statement": "The executed sizes returned by execute_market_order add up to min(requested, total resting shares of the opposite side); the flag is true exactly when the request was filled completely; resting shares drop by exactly the executed amount; the same side of the book is untouched; and within a call every reported price level is distinct and monotone from best to worse.", "quantifier": "every reachable book, side and requested size", "why_tests_cant": "conservation must survive all partial fills and level exhaustions", "anchors": ["crates/RustQuant_trading/src/limit_order_book.rs: Book::{new,add_order,cancel_order,execute_market_order}", "crates/RustQuant_trading/src/limit.rs: Limit::{cancel,execute}"]}
{"id": "C04", "title": "Failed book operations change nothing", "statement": "add_order with an id that is already resting returns ExistingIdError, and cancel_order with an id that is not resting returns NonExistingIdError; both leave every observable of the book unchanged; in all other cases the call succeeds.", "quantifier": "every reachable book and argument tuple", "why_tests_cant": "needs all histories to know which ids are resting", "anchors": ["crates/RustQuant_trading/src/limit_order_book.rs: Book::{new,add_order,cancel_order,execute_market_order}", "crates/RustQuant_trading/src/limit.rs: Limit::{cancel,execute}"]}
{"id": "C05", "title": "Cancel is the exact inverse of add", "statement": "Adding a fresh order and then cancelling it restores the book exactly; cancelling any resting order removes only that order, keeps the relative priority of all the others, and makes its id available again.", "quantifier": "every reachable book, every fresh order, every resting id", "why_tests_cant": "round trip over all states", "anchors": ["crates/RustQuant_trading/src/limit_order_book.rs: Book::{new,add_order,cancel_order,execute_market_order}", "crates/RustQuant_trading/src/limit.rs: Limit::{cancel,execute}"]}
{"id": "C06", "title": "Limit orders never cross on entry", "statement": "A book built by add_order calls never rests a buy at a price at or above a resting sell.", "quantifier": "every operation sequence", "why_tests_cant": "a negative claim over all histories (refuted: add_order never matches)", "anchors": ["crates/RustQuant_trading/src/limit_order_book.rs: Book::{new,add_order,cancel_order,execute_market_order}", "crates/RustQuant_trading/src/limit.rs: Limit::{cancel,execute}"]}
{"id": "C07", "title": "Reverse-mode gradients are exact derivatives", "statement": "For every expression built from variables, constants, and the overloaded operators and functions whose recorded partial is right, the number accumulate().wrt(x_i) equals the partial derivative of the mathematical function the expression denotes with respect to x_i, at every point where the primitives used are differentiable.", "quantifier": "every expression (any size, any sharing), every variable, every evaluation point in the domain", "why_tests_cant": "the chain rule over arbitrary DAGs cannot be enumerated; tests compare a few expressions", "anchors": ["crates/RustQuant_autodiff/src/graph.rs: Graph::{var,vars,push,join,clear,zero}", "crates/RustQuant_autodiff/src/accumulate.rs: accumulate", "crates/RustQuant_autodiff/src/gradient.rs: Gradient::wrt", "crates/RustQuant_autodiff/src/overload.rs: operator and function overloads"]}
{"id": "C08", "title": "The recorded tape is well formed", "statement": "Every vertex recorded by any program only refers to earlier vertices (or to itself as a neutral placeholder), so accumulate and wrt never index out of bounds, values equal plain evaluation of the expression, and the gradient vector is as long as the tape.", "quantifier": "every program over one graph", "why_tests_cant": "index safety over all programs", "anchors": ["crates/RustQuant_autodiff/src/graph.rs: Graph::{var,vars,push,join,clear,zero}", "crates/RustQuant_autodiff/src/accumulate.rs: accumulate", "crates/RustQuant_autodiff/src/gradient.rs: Gradient::wrt", "crates/RustQuant_autodiff/src/overload.rs: operator and function overloads"]}
{"id": "C09", "title": "Every overloaded primitive records its true partial derivative", "statement": "Each unary, binary and mixed overload (including log2, log10, log with variable base, powf and powi with a constant base, min and max with a constant) records the derivative of the value it computes.", "quantifier": "every primitive and every operand in its domain", "why_tests_cant": "derivative identities over the reals (partly refuted: log10, log2, log base, constant-base powers, min/max with a constant on the left)", "anchors": ["crates/RustQuant_autodiff/src/graph.rs: Graph::{var,vars,push,join,clear,zero}", "crates/RustQuant_autodiff/src/accumulate.rs: accumulate", "crates/RustQuant_autodiff/src/gradient.rs: Gradient::wrt", "crates/RustQuant_autodiff/src/overload.rs: operator and function overloads"]}
{"id": "C10", "title": "Joining graphs preserves gradients", "statement": "Appending the vertices of one graph to another with Graph::join keeps derivatives meaningful.", "quantifier": "every pair of graphs", "why_tests_cant": "refuted: join does not re-index parents", "anchors": ["crates/RustQuant_autodiff/src/graph.rs: Graph::{var,vars,push,join,clear,zero}", "crates/RustQuant_autodiff/src/accumulate.rs: accumulate", "crates/RustQuant_autodiff/src/gradient.rs: Gradient::wrt", "crates/RustQuant_autodiff/src/overload.rs: operator and function overloads"]}
{"id": "C11", "title": "Business-day rolling finds the nearest admissible day", "statement": "Following returns the earliest business day on or after the date, Preceding the latest on or before it; a business day is left unchanged by every convention; rolling twice equals rolling once; Actual is the identity.", "quantifier": "every date, every calendar predicate and set of extra holidays with a business day in the direction of travel", "why_tests_cant": "depends on arbitrary holiday runs", "anchors": ["crates/RustQuant_time/src/calendar.rs: Calendar", "crates/RustQuant_time/src/date_rolling.rs: DateRollingConvention::roll_date", "crates/RustQuant_time/src/utilities.rs: next_business_day, previous_business_day"]}
{"id": "C12", "title": "Modified conventions respect the month", "statement": "ModifiedFollowing returns the Following date when it lies in the same month and otherwise the Preceding date; symmetrically for ModifiedPreceding; if the month of the date holds a business day the result stays in that month.", "quantifier": "every date and calendar", "why_tests_cant": "month ends times holiday runs", "anchors": ["crates/RustQuant_time/src/calendar.rs: Calendar", "crates/RustQuant_time/src/date_rolling.rs: DateRollingConvention::roll_date", "crates/RustQuant_time/src/utilities.rs: next_business_day, previous_business_day"]}
{"id": "C13", "title": "Business-day counts are exact", "statement": "business_day_count(d1,d2) is the number of business days in the closed interval; all_business_days_between... counts over adjacent windows agree; the count is additive over adjacent intervals and bounded by the calendar-day count plus one.", "quantifier": "every pair of dates and calendar", "why_tests_cant": "unbounded intervals", "anchors": ["crates/RustQuant_time/src/calendar.rs: Calendar", "crates/RustQuant_time/src/date_rolling.rs: DateRollingConvention::roll_date", "crates/RustQuant_time/src/utilities.rs: next_business_day, previous_business_day"]}
{"id": "C14", "title": "Extra holidays only remove business days", "statement": "After add_holiday(s) exactly the listed dates become non-business days and no other date changes status; the order and repetition of the additions do not matter.", "quantifier": "every calendar, list of holidays and date", "why_tests_cant": "set semantics over all insertion sequences", "anchors": ["crates/RustQuant_time/src/calendar.rs: Calendar", "crates/RustQuant_time/src/date_rolling.rs: DateRollingConvention::roll_date", "crates/RustQuant_time/src/utilities.rs: next_business_day, previous_business_day"]}
{"id": "C15", "title": "Day-count conventions compute their defining fractions", "statement": "Actual/360, /364, /365F, /366, /365.25 are the actual day number over their constant, additive over chained dates, positive exactly for later dates and zero exactly on equal dates; 30/360 variants equal (360*dY + 30*dM + dD)/360 with their stated end-of-month adjustments and agree with each other away from month ends; Actual/Actual ISDA is the sum over the days of one over the length of each day's year, is additive and antisymmetric, and equals the number of years for whole calendar years; 365 Actual divides by 366 exactly when a leap day is contained; NL omits leap days; AFB counts whole years as such.", "quantifier": "every pair of valid dates", "why_tests_cant": "calendar arithmetic over all date pairs", "anchors": ["crates/RustQuant_time/src/day_counting.rs: DayCountConvention::day_count_factor and helpers", "crates/RustQuant_time/src/utilities.rs: days_between, leap_year_count, contains_leap_year"]}
{"id": "C16", "title": "Easter Monday tables equal the computus", "statement": "For every supported year (1901 to 2199) and both the Western and the Orthodox table, the stored day of year is the Monday after Easter Sunday as given by the Gregorian, respectively Julian, computus.", "quantifier": "all 299 years times two tables", "why_tests_cant": "598 table literals against an independent algorithm", "anchors": ["crates/RustQuant_time/src/constants.rs: EASTER_MONDAYS", "crates/RustQuant_time/src/utilities.rs: easter_monday"]}
{"id": "C17", "title": "Month and weekday helpers find what they name", "statement": "The first/last-weekday-of-month and end-of-month helpers return the first or last matching date of the given month. Weekends are the Saturdays and Sundays, consecutive dates are one day apart, and the year lengths of a range add up to the days between the New Years around it.", "quantifier": "every year, month and weekday", "why_tests_cant": "calendar arithmetic (one helper refuted: get_last_day_of_month)", "anchors": ["crates/RustQuant_time/src/utilities.rs: is_last_day_of_february, is_last_day_of_month, get_first_day_of_month, get_last_day_of_month, get_first_business/weekday helpers"]}
{"id": "C18", "title": "Linear interpolation reproduces the nodes and stays between neighbours", "statement": "For distinct abscissae, interpolate at a node returns its ordinate, between two neighbouring nodes it lies on their chord (so between their ordinates), outside the range it returns OutsideOfRange, and the answer does not depend on the order in which the points were supplied.", "quantifier": "every list of points with distinct abscissae and every query", "why_tests_cant": "sorting and search over arbitrary data", "anchors": ["crates/RustQuant_math/src/interpolation/linear_interpolator.rs"]}
{"id": "C19", "title": "Adding a point equals rebuilding", "statement": "add_point on an interpolator gives the same interpolator as constructing it from the points plus the new one, and queries outside the two adjacent segments are unchanged.", "quantifier": "every point list and new point", "why_tests_cant": "binary-search insertion over arbitrary data", "anchors": ["crates/RustQuant_math/src/interpolation/linear_interpolator.rs", "crates/RustQuant_math/src/interpolation/exponential_interpolator.rs"]}
{"id": "C20", "title": "Exponential interpolation is log-linear", "statement": "For positive ordinates the exponential interpolator returns positive values whose logarithm is the linear interpolation of the logarithms, reproducing the nodes.", "quantifier": "every list of points with distinct abscissae and positive ordinates, every query", "why_tests_cant": "transcendental identity over all data", "anchors": ["crates/RustQuant_math/src/interpolation/exponential_interpolator.rs"]}
{"id": "C21", "title": "B-spline basis is a partition of unity with local support", "statement": "For sorted knots and any degree the basis functions are non-negative, vanish outside their knot span, and sum to one on the admissible interval, so the curve lies in the convex hull of the control values; the admissible interval includes its right endpoint.", "quantifier": "every knot vector, degree, control polygon and parameter", "why_tests_cant": "recursive polynomials of any degree (right endpoint refuted)", "anchors": ["crates/RustQuant_math/src/interpolation/b_splines.rs"]}
{"id": "C22", "title": "Curves return their nodes and bracket queries", "statement": "get_rate at a node date returns the stored rate; get_brackets returns the closest nodes on both sides; set_rate is visible to later reads at that date and to no other node; first/last date and rate are the extremes.", "quantifier": "every curve, update sequence and query date", "why_tests_cant": "map semantics over all histories", "anchors": ["crates/RustQuant_data/src/curves.rs: Curve"]}
{"id": "C23", "title": "Shifting a curve moves every rate", "statement": "shift(s) adds s to the rate read at every date in range, and set_rate moves the interpolated rates next to the changed node.", "quantifier": "every curve and shift", "why_tests_cant": "refuted: the stored interpolator keeps the old nodes", "anchors": ["crates/RustQuant_data/src/curves.rs: Curve"]}
{"id": "C24", "title": "Bisection encloses a root within the accuracy", "statement": "When solve hands over a bracket with a sign change, the bisection loop ends after finitely many halvings and the returned abscissa is within the requested accuracy of a point where the function changes sign (a zero when it is continuous), or is itself numerically a zero.", "quantifier": "every function and bracket", "why_tests_cant": "loop invariant for all functions", "anchors": ["crates/RustQuant_math/src/rootfinding/bisection.rs", "crates/RustQuant_math/src/rootfinding/rootfinder.rs", "crates/RustQuant_math/src/rootfinding/newton_raphson.rs", "crates/RustQuant_math/src/rootfinding/brent.rs"]}
{"id": "C25", "title": "Root finding never reports a non-root as a root", "statement": "solve either returns an abscissa that is an approximate root of the target or signals failure.", "quantifier": "every function, guess and step", "why_tests_cant": "refuted: exhaustion of the bracket search returns 0.0", "anchors": ["crates/RustQuant_math/src/rootfinding/bisection.rs", "crates/RustQuant_math/src/rootfinding/rootfinder.rs", "crates/RustQuant_math/src/rootfinding/newton_raphson.rs", "crates/RustQuant_math/src/rootfinding/brent.rs"]}
{"id": "C26", "title": "FFT computes the discrete Fourier transform", "statement": "For every input whose length is a power of two the complex FFT returns the DFT of the input; it is linear and satisfies Parseval's identity; lengths that are not powers of two are rejected.", "quantifier": "every power of two length and every input vector", "why_tests_cant": "all lengths and all real inputs", "anchors": ["crates/RustQuant_math/src/fft.rs"]}
{"id": "C27", "title": "Real FFT returns the magnitude spectrum", "statement": "fft_real returns the magnitudes of the DFT coefficients.", "quantifier": "every real input", "why_tests_cant": "refuted: twiddle factors are replaced by their modulus", "anchors": ["crates/RustQuant_math/src/fft.rs"]}
{"id": "C28", "title": "Moments and dependence measures obey their laws", "statement": "Mean and variances are invariant under permutation, translate and scale as they should; the sample variance equals the covariance of a vector with itself and is non-negative; |correlation| <= 1.", "quantifier": "every sample", "why_tests_cant": "inequalities over all samples", "anchors": ["crates/RustQuant_math/src/statistic.rs: impl Statistic for Vec<f64>"]}
{"id": "C29", "title": "The classical means are ordered", "statement": "For positive samples harmonic mean <= geometric mean <= arithmetic mean, all within [min,max].", "quantifier": "every positive sample", "why_tests_cant": "AM-GM over all sizes", "anchors": ["crates/RustQuant_math/src/statistic.rs: impl Statistic for Vec<f64>"]}
{"id": "C30", "title": "Quantiles are order statistics", "statement": "percentile/quantile lie between min and max, are monotone in p, equal min at 0 and max at 1, do not depend on sample order, and the median is quantile(0.5); the interquartile range is quantile(0.75) - quantile(0.25).", "quantifier": "every non-empty sample and p in [0,1]", "why_tests_cant": "all samples (last clause refuted)", "anchors": ["crates/RustQuant_math/src/statistic.rs: impl Statistic for Vec<f64>"]}
{"id": "C31", "title": "Payoff identities", "statement": "Call minus put payoff equals S-K; knock-in plus knock-out equals the vanilla payoff; payoffs are non-negative; floating lookbacks dominate every fixed exercise; geometric Asian call payoffs never exceed arithmetic ones.", "quantifier": "every price path and strike", "why_tests_cant": "all paths", "anchors": ["crates/RustQuant_instruments/src/options/{vanilla,asian,barrier,binary,lookback,power,supershare,log}.rs: payoff"]}
{"id": "C32", "title": "Monte-Carlo prices are discounted averages", "statement": "The Monte-Carlo price is exp(-r(T-t)) times the average payoff over the simulated paths, hence linear and monotone in the payoff and between the discounted extremes.", "quantifier": "every set of simulated paths", "why_tests_cant": "all path sets", "anchors": ["crates/RustQuant_instruments/src/options/monte_carlo_pricer.rs"]}
{"id": "C33", "title": "Put-call parity", "statement": "In every generalised Black-Scholes-Merton variant, and in the Heston and Bachelier models, call minus put equals the discounted forward minus the discounted strike.", "quantifier": "every spot, strike, rate, carry, positive volatility and maturity", "why_tests_cant": "identity over all parameters", "anchors": ["crates/RustQuant_instruments/src/options/option_models.rs: mod bsm, impl_gbsm", "crates/RustQuant_instruments/src/options/black_scholes_merton.rs"]}
{"id": "C34", "title": "Closed-form Greeks are the derivatives of the price", "statement": "delta, gamma, vega, theta, vanna, zomma, speed, vomma, color, charm and rho of the Black-Scholes-Merton pricers are the partial derivatives of the price they name (theta and color with respect to calendar time).", "quantifier": "every admissible parameter tuple", "why_tests_cant": "analytic identities (ultima, charm sign, and rho of the futures models refuted)", "anchors": ["crates/RustQuant_instruments/src/options/option_models.rs: mod bsm, impl_gbsm", "crates/RustQuant_instruments/src/options/black_scholes_merton.rs"]}
{"id": "C35", "title": "Arbitrage bounds and monotonicity of option prices", "statement": "Prices lie between their discounted intrinsic value and the discounted forward (call) or strike (put); they increase with volatility; the call increases with spot with delta in (0, e^{(b-r)T}).", "quantifier": "every admissible parameter tuple", "why_tests_cant": "inequalities over all parameters", "anchors": ["crates/RustQuant_instruments/src/options/option_models.rs: mod bsm, impl_gbsm", "crates/RustQuant_instruments/src/options/black_scholes_merton.rs"]}
{"id": "C36", "title": "SABR at the money is finite and positive", "statement": "The SABR volatility at forward = strike is positive.", "quantifier": "every admissible parameter tuple", "why_tests_cant": "refuted: the formula degenerates at the money", "anchors": ["crates/RustQuant_instruments/src/options/option_models.rs: mod sabr"]}
{"id": "C37", "title": "The tridiagonal inverse is the inverse", "statement": "The closed-form inverse used by the implicit and Crank-Nicolson schemes multiplies with its tridiagonal matrix to the identity, for every system size, whenever the leading minors are non-zero.", "quantifier": "every size and coefficients", "why_tests_cant": "all sizes (size one refuted)", "anchors": ["crates/RustQuant_instruments/src/options/finite_difference_pricer.rs"]}
{"id": "C38", "title": "American options allow early exercise", "statement": "A finite-difference price with an American exercise flag is at least the European price and at least the immediate payoff.", "quantifier": "every American flag and grid", "why_tests_cant": "refuted: the flag is matched against constant dates", "anchors": ["crates/RustQuant_instruments/src/options/finite_difference_pricer.rs"]}
{"id": "C39", "title": "Explicit scheme is positive and monotone under its stability condition", "statement": "If the scheme coefficients are non-negative, non-negative terminal and boundary data give non-negative values at all steps, and larger data give larger values.", "quantifier": "every grid size, step count and data", "why_tests_cant": "induction over time steps", "anchors": ["crates/RustQuant_instruments/src/options/finite_difference_pricer.rs"]}
{"id": "C40", "title": "Portfolio accounting identities", "statement": "profit = value - cost; values are additive over positions and independent of map order; updating one position's price or quantity changes only that position's contribution; position weights sum to one.", "quantifier": "every portfolio and update sequence", "why_tests_cant": "all portfolios", "anchors": ["crates/RustQuant_portfolios/src/lib.rs"]}
{"id": "C41", "title": "Money arithmetic is currency safe", "statement": "Adding, subtracting, multiplying, dividing or converting amounts never silently mixes currencies: operations on different currencies panic, same-currency operations keep the currency, conversion multiplies by the stored rate and yields the target currency, and converting there and back with reciprocal rates restores the amount.", "quantifier": "all amounts, currencies and rate tables", "why_tests_cant": "all tables and histories", "anchors": ["crates/RustQuant_instruments/src/fx/money.rs", "crates/RustQuant_instruments/src/fx/exchange.rs"]}
{"id": "C42", "title": "Quotes remember the last value set", "statement": "After set_value(v) a quote's value is v, and the returned difference is new minus old.", "quantifier": "every update sequence", "why_tests_cant": "refuted for None and for a first value of 0", "anchors": ["crates/RustQuant_cashflows/src/quotes.rs"]}
{"id": "C43", "title": "Cashflow and leg algebra", "statement": "Cashflow addition requires equal dates; leg npv is linear in the cashflows; start and end dates are the extremes; is_active holds exactly between them.", "quantifier": "every leg", "why_tests_cant": "all legs", "anchors": ["crates/RustQuant_cashflows/src/cashflow.rs", "crates/RustQuant_cashflows/src/legs.rs"]}
{"id": "C44", "title": "Gradient descent reports the value at its minimizer", "statement": "The result's minimum is the objective at the result's minimizer; iterations never exceed the maximum; the reported stop happens only when the gradient norm is below the tolerance or the budget is exhausted.", "quantifier": "every objective and configuration", "why_tests_cant": "all objectives (first clause refuted)", "anchors": ["crates/RustQuant_math/src/optimization/gradient_descent.rs"]}
{"id": "C45", "title": "Simulation shape and determinism", "statement": "generate returns n_steps+1 times from t_0 to t_n and m_paths paths of n_steps+1 points starting at x_0; with a seed the result is a function of the configuration only, in particular the same in parallel and serial mode; the Euler scheme follows its recurrence.", "quantifier": "every process, configuration and random stream", "why_tests_cant": "all schedules and streams", "anchors": ["crates/RustQuant_stochastics/src/simulation.rs", "crates/RustQuant_stochastics/src/process.rs"]}
{"id": "C46", "title": "Milstein and Strang schemes converge to the stated SDE", "statement": "The Milstein and Strang steps use Brownian increments of variance dt, as the Euler step does, and Milstein's correction uses the derivative of the diffusion.", "quantifier": "every process and step", "why_tests_cant": "refuted: increments unscaled, difference quotient multiplied instead of divided", "anchors": ["crates/RustQuant_stochastics/src/simulation.rs", "crates/RustQuant_stochastics/src/process.rs"]}
{"id": "C47", "title": "Nelson-Siegel-Svensson rates are consistent", "statement": "The instantaneous forward rate is the derivative of maturity times spot rate; the discount factor lies in (0,1] for non-negative spot rates.", "quantifier": "every parameter set and maturity", "why_tests_cant": "analytic identity", "anchors": ["crates/RustQuant_stochastics/src/nelson_siegel_svensson.rs"]}
{"id": "C48", "title": "k-nearest-neighbour prediction is a majority vote of nearest points", "statement": "The k neighbours are the k samples with the smallest distances (ties by index), and the predicted label has maximal frequency among them.", "quantifier": "every data set, query and k", "why_tests_cant": "all data sets", "anchors": ["crates/RustQuant_ml/src/k_nearest_neighbors.rs"]}
{"id": "C49", "title": "Lasso coordinate descent is sound", "statement": "Each coordinate update minimises the lasso objective in that coordinate, so the objective never increases; the maintained residual equals y - X beta; a fixed point satisfies the optimality conditions.", "quantifier": "every data set, penalty and number of sweeps", "why_tests_cant": "all data sets", "anchors": ["crates/RustQuant_ml/src/lasso.rs"]}
{"id": "C50", "title": "Least-squares fits minimise their objective", "statement": "With exact inversion, linear and ridge regression return coefficients whose (penalised) sum of squares is not larger than that of any other coefficients.", "quantifier": "every data set", "why_tests_cant": "optimality over all competitors", "anchors": ["crates/RustQuant_ml/src/linear_regression.rs", "crates/RustQuant_ml/src/ridge_regression.rs"]}
{"id": "C51", "title": "Distribution functions are consistent", "statement": "pmf/pdf, cdf, inv_cdf, mean, variance and mgf of each distribution agree: cdf sums the pmf, inv_cdf inverts the cdf, mean and variance are those of the pmf.", "quantifier": "every parameter and argument", "why_tests_cant": "identities over all parameters (several refuted)", "anchors": ["crates/RustQuant_math/src/distributions/"]}
{"id": "C52", "title": "Sequences and cumulative sums", "statement": "linspace(a,b,n) has n equally spaced points from a to b; cumsum's i-th element is the sum of the first i+1 inputs; seq covers [start,end] with the given step.", "quantifier": "every argument", "why_tests_cant": "all lengths", "anchors": ["crates/RustQuant_math/src/sequences.rs"]}
{"id": "C53", "title": "Activation functions", "statement": "sigmoid maps into (0,1), is increasing and satisfies s(-x)=1-s(x); relu on plain numbers and on autodiff variables agree; softplus dominates relu.", "quantifier": "every real input", "why_tests_cant": "inequalities over the reals", "anchors": ["crates/RustQuant_ml/src/activations.rs"]}
{"id": "C54", "title": "Frequencies are inferred from the gap between dates", "statement": "infer_frequency returns a frequency exactly when the number of days lies in that frequency's window; dates one calendar month or one year apart are always recognised, and so should be dates three or six months apart.", "quantifier": "every pair of valid dates", "why_tests_cant": "unit tests use a few pairs; the windows must cover every month length, leap year and year end", "anchors": ["crates/RustQuant_time/src/frequency.rs: Frequency::infer_frequency", "crates/RustQuant_time/src/constants.rs"]}
{"id": "C55", "title": "Schedules align dates and factors", "statement": "generate_schedule_from_dates returns the input dates rolled one by one, and for each date the day-count factor from the previous one (from today for the first): as many factors as dates. An empty list of dates panics.", "quantifier": "every calendar, list of dates, rolling and day-count convention", "why_tests_cant": "alignment of the two vectors has to hold for lists of every length and every convention", "anchors": ["crates/RustQuant_time/src/calendar.rs: Calendar::generate_schedule_from_dates", "crates/RustQuant_time/src/schedule.rs"]}
{"id": "C56", "title": "A business day is neither weekend nor holiday", "statement": "is_business_day holds exactly when the weekday is outside the market's weekend (Friday and Saturday for Israel, Saturday and Sunday otherwise), the date is not an extra holiday and the market's rule does not list it.", "quantifier": "every calendar and date", "why_tests_cant": "a test fixes a calendar and a few dates", "anchors": ["crates/RustQuant_time/src/calendar.rs: Calendar::is_business_day, is_weekend, is_holiday"]}
{"id": "C57", "title": "Risk-adjusted ratios do not depend on leverage", "statement": "Levering a portfolio by any non-zero factor at the risk-free rate leaves the Treynor, Sharpe, Sortino and Burke ratios unchanged and multiplies Jensen's alpha by the factor; alpha is zero exactly on the security market line.", "quantifier": "every set of portfolio measures and every leverage factor", "why_tests_cant": "tests evaluate one portfolio; the claim is an invariance over all of them (the Burke ratio clause is refuted)", "anchors": ["crates/RustQuant_math/src/risk_reward.rs: PortfolioMeasures"]}
{"id": "C58", "title": "Least-squares Monte-Carlo exercises each simulated path exactly once", "statement": "For valid parameters the American option pricer never panics and returns the average over simulations of one payoff each, taken at a single date between the first step and expiry; a path is exercised exactly when it is in the money and its payoff exceeds the regression's fitted value; the price is non-negative and a put never exceeds its strike; the result is discounted to the evaluation date and is at least the immediate exercise value.", "quantifier": "every parameter set, every stream of normal variates, every regression solver outcome", "why_tests_cant": "tests compare one seeded run with a reference price; the claim covers every random stream and every outcome of the regression, including failures (the last two clauses are refuted)", "anchors": ["crates/RustQuant_instruments/src/options/longstaff_schwartz.rs: LongstaffSchwartzPricer::generate_price"]}
{"id": "C59", "title": "Bachelier prices and Greeks are consistent", "statement": "For positive expiry and volatility Bachelier calls and puts satisfy put-call parity, are positive and above discounted intrinsic value; the at-the-money price formula is the undiscounted price and the at-the-money volatility inverts it; delta, gamma, vega and theta are the derivatives of the price; the implied-volatility approximation is finite at the money and gives a call and its parity put the same volatility.", "quantifier": "every forward, strike, expiry, rate and volatility", "why_tests_cant": "analytic identities over all parameters (Greeks refuted for non-zero rate, implied volatility refuted at the money and under parity)", "anchors": ["crates/RustQuant_instruments/src/options/option_models.rs: mod bachelier"]}
{"id": "C60", "title": "Heston prices are parity consistent, unit free, and gamma differentiates delta", "statement": "Heston calls and puts satisfy put-call parity in price, delta and rho; scaling spot and strike by the same factor scales prices by it and leaves deltas unchanged; gamma is exactly the spot derivative of the delta the pricer returns.", "quantifier": "every parameter set, every quadrature rule on [-1,1], every branch choice of the complex square root and logarithm", "why_tests_cant": "identities over all parameters and quadrature tables", "anchors": ["crates/RustQuant_instruments/src/options/option_models.rs: mod heston, p1p2"]}
{"id": "C61", "title": "Process families agree where they should", "statement": "Hull-White/extended Vasicek with theta = alpha*mu simulates exactly the Ornstein-Uhlenbeck paths, Ho-Lee the arithmetic Brownian paths, CEV with elasticity one the geometric Brownian paths; CEV with elasticity one half has the CIR diffusion; parameters outside the asserted ranges panic; the Brownian bridge drift pulls towards its end value; the Black-Derman-Toy derivative is exact for quadratics.", "quantifier": "every parameter function, configuration, scheme and noise", "why_tests_cant": "equality of whole families of simulated paths", "anchors": ["crates/RustQuant_stochastics/src/hull_white.rs", "crates/RustQuant_stochastics/src/ho_lee.rs", "crates/RustQuant_stochastics/src/constant_elasticity_of_variance.rs", "crates/RustQuant_stochastics/src/geometric_brownian_bridge.rs"]}
{"id": "C62", "title": "Fractional Gaussian noise has the fractional Brownian covariance", "statement": "The covariance matrix used by the Cholesky method sums over n unit increments to n^(2H), is the identity for H = 1/2; paths of a seeded run differ from each other; increments are scaled once.", "quantifier": "every Hurst index in (0,1], size and seed", "why_tests_cant": "all sizes; the last two parts are refuted (seeded paths are all equal, Euler scales twice, H = 1 is singular)", "anchors": ["crates/RustQuant_stochastics/src/fractional_process.rs"]}
{"id": "C63", "title": "Stochastic volatility paths depend on the volatility process", "statement": "The asset paths of StochasticVolatilityProcess::euler_maruyama have n+1 points starting at x_0 and depend on the volatility process.", "quantifier": "every coefficient function and noise", "why_tests_cant": "refuted for every input: the asset paths never read the volatility", "anchors": ["crates/RustQuant_stochastics/src/process.rs"]}
{"id": "C64", "title": "Jump diffusion adds one jump per counted event", "statement": "A step adds a jump exactly when the Poisson count is positive; a run with no steps or non-positive intensity panics; several events in one step add several jumps.", "quantifier": "every process, count and draw", "why_tests_cant": "the last part is refuted for every count above zero", "anchors": ["crates/RustQuant_stochastics/src/simulation.rs", "crates/RustQuant_stochastics/src/merton_jump_diffusion.rs"]}
{"id": "C65", "title": "Square-root process stays in its domain", "statement": "The CIR Euler step follows its recurrence while the rate is non-negative and never leaves the domain where later steps are finite.", "quantifier": "every parameter and noise", "why_tests_cant": "refuted: one large negative draw makes the state negative, after which every later point is NaN", "anchors": ["crates/RustQuant_stochastics/src/cox_ingersoll_ross.rs", "crates/RustQuant_stochastics/src/simulation.rs"]}
{"id": "C66", "title": "Gradient descent decreases the objective and terminates on smooth objectives", "statement": "For a differentiable objective whose gradient is Lipschitz with constant L, each step with learning rate lr and L*lr <= 2 does not increase the objective, and with a bounded-below objective and a large enough iteration budget GradientDescent::optimize stops because the gradient norm fell below the tolerance, returning that point.", "quantifier": "every objective expressible in the autodiff API that is smooth, every dimension, start point, learning rate, tolerance", "why_tests_cant": "a test runs a fixed objective and start point; the claim is over all smooth objectives and dimensions", "anchors": ["crates/RustQuant_math/src/optimization/gradient_descent.rs: GradientDescent::optimize"]}
{"id": "C67", "title": "One accumulation gives every directional derivative", "statement": "After building any computation from n input variables and calling accumulate once on the result, the inner product of the gradient with any direction u equals the derivative of the result along u.", "quantifier": "every program over the autodiff API inside its domain, every number of inputs, every direction", "why_tests_cant": "there are infinitely many programs, points and directions", "anchors": ["crates/RustQuant_autodiff/src/gradient.rs: accumulate, wrt"]}
{"id": "C68", "title": "Logistic regression fits by maximum likelihood", "statement": "The vector and matrix of each IRLS step are the gradient and minus the Hessian of the Bernoulli log-likelihood, coefficients where the step is zero maximise that likelihood globally, a fit that stops because the step is below the tolerance is a Newton step of at most that size from coefficients whose likelihood is maximal up to an explicit multiple of the tolerance, predictions are 1 exactly when the linear score is positive, and probabilities lie strictly between 0 and 1.", "quantifier": "every design matrix, response vector, tolerance and correct linear solver", "why_tests_cant": "the data sets, dimensions and iteration counts are unbounded and optimality compares against every other coefficient vector", "anchors": ["crates/RustQuant_ml/src/logistic_regression.rs: LogisticRegressionInput::fit, LogisticRegressionOutput::predict, predict_proba, score_misclassification, score_cross_entropy"]}
{"id": "C69", "title": "Bernoulli and binomial distributions agree with their mass functions", "statement": "The mean, variance, skewness, kurtosis, entropy and moment generating function returned for a Bernoulli or binomial distribution are the ones of its pmf; its cdf sums the pmf, its inverse cdf returns the least value whose cdf reaches the probability, and its mode maximises the pmf. (Several of these fail and are refuted.)", "quantifier": "every success probability, number of trials, argument and probability", "why_tests_cant": "identities over all parameters; the boundary failures sit on single points", "anchors": ["crates/RustQuant_math/src/distributions/bernoulli.rs", "crates/RustQuant_math/src/distributions/binomial.rs"]}
{"id": "C70", "title": "Poisson distribution agrees with its mass function", "statement": "The moments and mgf returned for a Poisson distribution are those of its pmf over all naturals, the mode maximises the pmf and the quantile search returns the least integer whose cdf reaches the probability. (The cdf, the median and the panics are refuted.)", "quantifier": "every rate, count and probability", "why_tests_cant": "infinite sums over all counts", "anchors": ["crates/RustQuant_math/src/distributions/poisson.rs"]}
{"id": "C71", "title": "Uniform distribution agrees with its density", "statement": "For both the discrete and continuous uniform distribution the returned mean, variance, kurtosis, entropy, cdf, inverse cdf, mgf and characteristic function are those of the pmf/pdf. (The discrete variance and sampling are refuted.)", "quantifier": "every pair of end points, argument and frequency", "why_tests_cant": "integrals and sums over all end points", "anchors": ["crates/RustQuant_math/src/distributions/uniform.rs"]}
{"id": "C72", "title": "Exponential and Gaussian distributions agree with their densities", "statement": "Total mass 1, mean, variance, skewness, kurtosis, entropy, mgf and characteristic function of the exponential and Gaussian distributions are the corresponding integrals of the pdf; the cdf is the integral of the pdf and inv_cdf inverts it.", "quantifier": "every rate, mean, variance, argument and frequency", "why_tests_cant": "improper integrals over the real line for every parameter", "anchors": ["crates/RustQuant_math/src/distributions/exponential.rs", "crates/RustQuant_math/src/distributions/gaussian.rs"]}
{"id": "C73", "title": "Gamma and chi-squared distributions agree with their densities", "statement": "Total mass 1, mean, variance, skewness, kurtosis, mgf and characteristic function of the gamma and chi-squared distributions and the entropy of the latter are the corresponding integrals of the pdf; the cdf is its integral, the mode maximises it, and the chi-squared quantile search ends within 2e-10 of the true quantile whenever that is at most 3k/2. (Larger quantiles, small probabilities with k=1 and the median are refuted.)", "quantifier": "every shape, rate, number of degrees of freedom, argument and probability", "why_tests_cant": "improper integrals of real powers and a search loop over all probabilities", "anchors": ["crates/RustQuant_math/src/distributions/gamma.rs", "crates/RustQuant_math/src/distributions/chi_squared.rs"]}
{"id": "C74", "title": "Easter dates in the calendar tables", "statement": "For every year 1901-2199 the Western Easter Monday used by the holiday rules is the day after the Sunday given by the Gregorian computus, between 23 March and 26 April, and the Orthodox one is the day after the Julian computus Sunday; for any other year the lookup panics, so asking any market with holidays of its own about a weekday outside 1901-2199 panics.", "quantifier": "every year of the table and every year outside it, every market", "why_tests_cant": "a test samples a few years; a single wrong table entry moves holidays in one year only", "anchors": ["crates/RustQuant_time/src/utilities.rs unpack_date", "crates/RustQuant_time/src/constants.rs easter tables", "crates/RustQuant_time/src/calendar.rs is_holiday"]}
{"id": "C75", "title": "National holiday rules", "statement": "For each of the 21 markets whose holidays follow rules (Argentina, Australia, Austria, Botswana, Brazil, Canada, Chile, Czech Republic, Denmark, Finland, France, Germany, Hungary, Iceland, Italy, Mexico, Netherlands, New Zealand, Switzerland, UK, US) a date is a business day exactly when it is not on the weekend and is none of the listed holidays, where a holiday is a fixed day, an offset from Easter Sunday, the n-th or last weekday of a month, a weekday nearest a date, or such a day moved when it falls on given weekdays. Known deviations from the real calendars (New Year in Argentina, Ascension and Whit Monday in France) are refuted.", "quantifier": "every valid date in 1901-2199 and every such market", "why_tests_cant": "over 100,000 dates per market with interacting weekday, year and Easter conditions; tests in the repository sample single years", "anchors": ["crates/RustQuant_time/src/countries/*.rs", "crates/RustQuant_time/src/calendar.rs is_business_day"]}
{"id": "C76", "title": "Markets with year-by-year tables", "statement": "For China, Hong Kong, India, Indonesia and Singapore a date is a holiday exactly when it is one of the listed solar holidays or in a table; the tables are empty outside the years they cover, so later years have only solar holidays; the lunar feasts tabulated for Hong Kong and India have exactly one date a year, 12 or 13 lunations after the last. In Israel the rule agrees with the Hebrew dates of the festivals in common years and from Nisan on in leap years. Known wrong entries (25th of every month in Singapore, lunar new year 2014, Vesak 2005, missing feasts of sacrifice and Eid, Adar in Hebrew leap years) are refuted.", "quantifier": "every valid date in 1901-2199; every tabulated year; every conversion to Hebrew dates", "why_tests_cant": "table coverage and consistency are claims about all years and all entries", "anchors": ["crates/RustQuant_time/src/countries/china.rs", "crates/RustQuant_time/src/countries/hong_kong.rs", "crates/RustQuant_time/src/countries/india.rs", "crates/RustQuant_time/src/countries/indonesia.rs", "crates/RustQuant_time/src/countries/singapore.rs", "crates/RustQuant_time/src/countries/israel.rs"]}
{"id": "C77", "title": "Accuracy of the normalised Black function", "statement": "The normalised Black call used by the implied volatility solver agrees with the exact normalised Black price to a relative error of 2e-14 (apart from rounding), whichever of its four regions (asymptotic expansion, small-t expansion, norm_cdf, erfcx) is used; the hard-coded expansion polynomials are exactly the Taylor and asymptotic series they are said to be; the numeric constants are accurate to 1e-15.", "quantifier": "every moneyness x and every total volatility s > 0", "why_tests_cant": "a relative bound over an unbounded two-dimensional domain; tests sample points", "anchors": ["crates/RustQuant_instruments/src/options/implied_volatility.rs normalised_black_call, small_t_expansion_sum, asymptotic_expansion_sum, constants"]}
{"id": "C78", "title": "Rational cubic interpolation of the guess", "statement": "The rational cubic interpolation passes through its nodes, has the slopes asked for at both ends, has the second derivative asked for when the control parameter fits it, and is monotone for monotone data whatever control parameter the solver picks. The guard against division by zero in the convex case is wrong: when the right slope equals the secant, the left slope is lost (refuted).", "quantifier": "all nodes, values, slopes, curvatures and evaluation points", "why_tests_cant": "shape preservation is a statement about every point of every interpolant", "anchors": ["crates/RustQuant_instruments/src/options/implied_volatility.rs interpolation, minimum_rational_cubic_control_parameter, convex_rational_cubic_control_parameter_*"]}
{"id": "C79", "title": "Householder iterations of the implied volatility solver", "statement": "On the lowest and highest segments the iteration is Householder's third-order step for the documented objective, whose only zero is the implied volatility; on the middle segments it is not: the second-derivative term lacks a division by s, so the step is only right at the money or at s = 1 (refuted). The maps of the outer segments are undone by their inverses and their slopes and curvatures are the derivatives with respect to price.", "quantifier": "every moneyness, price strictly between the bounds and iterate", "why_tests_cant": "derivative identities for all arguments; a wrong higher-order term still converges on test points", "anchors": ["crates/RustQuant_instruments/src/options/implied_volatility.rs unchecked_normalised_implied_volatility_from_a_transformed_rational_guess_with_limited_iterations, compute_f_lower_map_and_first_two_derivatives, compute_f_upper_map_and_first_two_derivatives"]}
{"id": "C80", "title": "What implied_volatility answers", "statement": "A volatility reproducing a price exists exactly strictly between the discounted intrinsic value and the cap, and is unique. implied_volatility returns minus infinity exactly below the intrinsic value, zero exactly at it, plus infinity at or above the cap, and a positive volatility between. The first guess is positive and lies in its bracket. Calls and puts in parity get the same answer; the answer is invariant under scaling of prices and scales with the square root of time. The volatility sqrt(2|ln(F/K)|/T) is recovered exactly. The option method ignores the cost of carry, so the round trip fails for options on futures (refuted).", "quantifier": "every spot, strike, expiry, rate, price and option type", "why_tests_cant": "totality, uniqueness and symmetry over all real inputs", "anchors": ["crates/RustQuant_instruments/src/options/implied_volatility.rs implied_volatility, implied_volatility_from_a_transformed_rational_guess_with_limited_iterations", "crates/RustQuant_instruments/src/options/black_scholes_merton.rs BlackScholesMerton::implied_volatility"]}
{"id": "C81", "title": "Both fractional noise generators have exactly the fractional Brownian covariance", "statement": "For every Hurst index in (0,1) and every number of steps, the Cholesky and the Fourier (circulant embedding) generator answer without panicking and without NaN; the increments they produce are linear in the independent normal draws and have exactly the covariance of fractional Gaussian noise, so their running sums have exactly the covariance (s^2h + t^2h - |s-t|^2h)/2 of fractional Brownian motion. This needs the autocovariance matrix to be positive definite and the circulant eigenvalues nonnegative for all sizes. The Fourier generator also works at Hurst 1, where the Cholesky one panics, and it rejects indices outside [0,1] and zero steps.", "quantifier": "all Hurst indices, step counts, horizons and noise draws", "why_tests_cant": "The covariance is a statement about all draws and all sizes; positivity of the eigenvalues for every real Hurst index and size cannot be sampled.", "anchors": ["crates/RustQuant_stochastics/src/fractional_process.rs: FractionalProcess::fgn_cholesky, fgn_fft, acf_matrix_sqrt, acf_vector"]}
{"id": "C82", "title": "Numerical integration is accurate for smooth integrands, with explicit error bounds", "statement": "Every polynomial of degree up to 11 is integrated to 1e-15 relative to its coefficients on every interval (1e-10 up to degree 30, 1e-8 up to 100), so any function near a polynomial, any function with bounded derivatives, any function analytic in a disc of three half-widths (fifteen digits; the exponential on every interval) and any Lipschitz function has an explicit error bound. The rule is linear, monotone, bounded by the extremes of the integrand and changes sign when the limits are swapped, up to the asymmetry of the table. It cannot be accurate for all continuous integrands: a spike between two nodes integrates to zero, and a nowhere finite integrand silently gives zero.", "quantifier": "all integrands, intervals, degrees and smoothness bounds", "why_tests_cant": "Accuracy is a statement about all functions and intervals; the one unit test integrates one function over one interval.", "anchors": ["crates/RustQuant_math/src/integration.rs: integrate, tanhsinh, ABSCISSAE, WEIGHTS"]}
{"id": "C83", "title": "Heston prices solve Heston's pricing equation", "statement": "Call and put prices of the Heston option, as functions of spot, variance and time to expiry, have the partial derivatives that Heston's pricing equation names and satisfy that equation exactly, for the finite quadrature rule the code uses, as long as no logarithm argument is on the branch cut; for every parameter set there is an expiry below which none is. The characteristic functions start at exp(i phi ln s), never exceed one in modulus, and no denominator of the formula vanishes at any expiry.", "quantifier": "every parameter set with positive vol of vol, correlation strictly between -1 and 1, positive mean reversion at least rho sigma; every quadrature rule on [-1,1]; every spot, strike, variance, expiry", "why_tests_cant": "a differential equation and a bound over a continuum of parameters; finite differences at sample points cannot establish either", "anchors": ["crates/RustQuant_instruments/src/options/option_models.rs: mod heston, HestonOption price", "crates/RustQuant_math/src/integration.rs: integrate"]}
{"id": "C84", "title": "Heston prices are continuous in the expiry (refuted)", "statement": "A user expects the Heston call price to vary continuously with the time to expiry. It does not: because the code takes the principal logarithm of the quotient, whenever 0 < 2 kappa theta < sigma^2 and 2 kappa rho differs from sigma there are an expiry and a strike at which the call price jumps, for the library's own quadrature table.", "quantifier": "every such parameter set, every spot, variance and rates, every quadrature rule with an isolated node of non-zero weight", "why_tests_cant": "the jump times depend on every parameter; sampled expiries miss them and a single price looks plausible", "anchors": ["crates/RustQuant_instruments/src/options/option_models.rs: mod heston, HestonOption price", "crates/RustQuant_math/src/integration.rs: integrate"]}
{"id": "C85", "title": "Country and market codes are consistent", "statement": "ISO_3166::from_alpha_2 accepts a string exactly when it is the two-letter code of one of the library's country constants and then returns that constant. No two country constants share an alpha-2, alpha-3 or numeric code, and every code has the length and alphabet of the standard. Every market constant names an operating market that is itself a constant; it names itself exactly when it is flagged as operating, and unless it has expired the market it names is flagged as operating. The country of every market except those coded ZZ resolves through from_alpha_2. (Two stronger claims are refuted: some markets name a segment as operator, and markets coded ZZ resolve to no country.)", "quantifier": "every string; all 249 country constants; all 2615 market constants", "why_tests_cant": "from_alpha_2 ranges over all strings, and a test of a few codes cannot see one swapped row among thousands", "anchors": ["crates/RustQuant_iso/src/iso_3166.rs: ISO_3166, from_alpha_2, the constants", "crates/RustQuant_iso/src/iso_10383.rs: ISO_10383, the constants"]}
{"id": "C86", "title": "The queue order book keeps every order once, per side, in arrival order", "statement": "After any history of insert_order calls on a new OrderBook, bids holds exactly the bid orders and asks exactly the ask orders, each as often as it was inserted and in the order of insertion; len is the number of insertions and is_empty is true exactly when there were none. Insertions on opposite sides commute. (Price priority is refuted: a better bid that arrives later stands behind.)", "quantifier": "every finite history of insertions, every order", "why_tests_cant": "a property of every history, of any length and interleaving of sides", "anchors": ["crates/RustQuant_trading/src/order_book.rs: OrderBook new, insert_order, is_empty, len", "crates/RustQuant_trading/src/order_side.rs: OrderSide"]}
{"id": "C87", "title": "The DOT text of a graph says exactly what the graph is", "statement": "graphviz never panics, whatever variables are passed. Reading its text line by line gives every vertex exactly once, labelled as an input exactly when its index is among the variables, followed by exactly one edge for each parent slot whose parent is not the vertex itself. Two graphs with the same text have the same number of vertices, the same inputs and the same edges.", "quantifier": "every graph, every list of variables (from any graph, with repeats), every formatting of floats that stays on one line", "why_tests_cant": "text output for graphs of unbounded size; tests only print it", "anchors": ["crates/RustQuant_autodiff/src/graphviz.rs: graphviz"]}
{"id": "C88", "title": "Simulated end values have the moments the SDE asks for, at the proved rate", "statement": "With one independent standard normal draw per step, the expected end value of an Euler-Maruyama path of a process with affine drift and diffusion is the end of the path without noise. For geometric Brownian motion with n steps the mean and second moment are closed forms that converge to those of the SDE, with error exactly of order 1/n; and the mean-square distance to the exact solution driven by the same noise is a closed form, tends to 0, and n times it tends to x0^2 exp((2mu+sigma^2)T) sigma^4 T^2/2 (strong order 1/2). Ornstein-Uhlenbeck and arithmetic Brownian motion have the closed-form means and variances of the discrete scheme, and the former converge to the SDE's. (Refuted: the discounted simulated forward is unbiased - it is below the spot for every step count; and the Milstein and Strang schemes give Brownian motion the variance of the horizon - they give the number of steps.)", "quantifier": "every parameter of the process, every start, horizon and number of steps, every draw of the noise", "why_tests_cant": "an expectation over all noise and a limit over all step counts; a simulation only samples it", "anchors": ["crates/RustQuant_stochastics/src/process.rs: StochasticProcess::generate, euler_maruyama, StochasticScheme", "crates/RustQuant_stochastics/src/simulation.rs", "crates/RustQuant_stochastics/src/geometric_brownian_motion.rs", "crates/RustQuant_stochastics/src/ornstein_uhlenbeck.rs", "crates/RustQuant_stochastics/src/arithmetic_brownian_motion.rs"]}
{"id": "C89", "title": "Closed-form prices are discounted expectations of the payoff", "statement": "The generalised Black-Scholes-Merton price of a call or put equals the discounted expectation of its payoff at a lognormal end value with the model's cost of carry, and the zeta Greek is the probability of finishing in the money; this holds for every member of the family (Black-Scholes, Merton, Black 76, Asay, Garman-Kohlhagen). The price with more time to expiry is the discounted expectation of the price at an intermediate date. The same holds for the Bachelier price with a normal end value and no discounting, because the code does not discount it.", "quantifier": "every admissible spot, strike, time to expiry, intermediate date, rate, carry and volatility", "why_tests_cant": "an identity between a closed form and an integral over all outcomes, for all real parameters", "anchors": ["crates/RustQuant_instruments/src/options/option_models.rs", "crates/RustQuant_instruments/src/options/black_scholes_merton.rs", "crates/RustQuant_instruments/src/options/vanilla.rs"]}
{"id": "C90", "title": "The Monte-Carlo price is unbiased and converges to the closed form", "statement": "With independent standard normal draws, the Monte-Carlo price of m simulated paths has as its mean the discounted expected payoff of one path, and as its variance the payoff variance of one path divided by m, whatever the thread schedule and the seed setting. These moments exist for every process with Lipschitz drift and diffusion and every Lipschitz payoff of the last price. For a vanilla option on geometric Brownian motion the bias against the closed-form price is at most the strong error of the scheme, and the mean-square error is at most A/m + B/n for two constants that do not depend on the numbers of paths m and steps n.", "quantifier": "every process, payoff, schedule, seed setting, number of paths up to 2^64 and number of steps; all strikes, spots, rates and volatilities for the vanilla case", "why_tests_cant": "an expectation over all noise for all path and step counts; a simulation only samples it", "anchors": ["crates/RustQuant_instruments/src/monte_carlo_pricer.rs", "crates/RustQuant_stochastics/src/process.rs: StochasticProcess::generate", "crates/RustQuant_stochastics/src/geometric_brownian_motion.rs", "crates/RustQuant_instruments/src/options/vanilla.rs"]}
{"id": "C91", "title": "Finite-difference prices approach the closed form as the grid is refined", "statement": "For every stable grid the explicit, implicit and Crank-Nicolson prices of a call or put without early exercise differ from the closed-form price by at most an explicit boundary error, plus any chosen tolerance, plus a constant times (1/time steps + 1/price steps), where the constant does not depend on the scheme or the grid. The boundary error is below 10 cents for an at-the-money option on 100 with 5% interest, 20% volatility and one year. The boundary error cannot be dropped: whenever the strike exceeds the lowest grid price grown at the interest rate, the put price of all fine stable grids stays below the closed form by a fixed positive amount, because the boundary value is discounted twice.", "quantifier": "every positive spot, strike, rate, volatility and maturity, both types, all three schemes, all stable grids of any size", "why_tests_cant": "a limit over all grid sizes; a test compares one grid with one tolerance", "anchors": ["crates/RustQuant_instruments/src/options/finite_difference_pricer.rs", "crates/RustQuant_instruments/src/options/black_scholes_merton.rs"]}
{"id": "C92", "title": "Binary64 sums, means and variances have bounded error", "statement": "With IEEE-754 arithmetic, a finite sum of n numbers comes only from finite numbers and differs from the exact sum by at most ((1+2^-53)^(n-1)-1) times the sum of magnitudes; sums cannot overflow below an explicit threshold; two orders of the same positions agree up to twice that bound but not exactly, so the value of a portfolio kept in a hash map may differ between runs; sums and portfolio values do not decrease when a term or a price increases. The mean has a similar error bound, panics only for an empty vector, may lie outside the range of its data and may overflow. Variances and standard deviations are never negative; the sample variance of one number is NaN; a constant vector may have a positive variance and a correlation may exceed one. Running sums are the sums of the prefixes and do not decrease for non-negative terms.", "quantifier": "every list of binary64 numbers of any length, every order, both initial zeros", "why_tests_cant": "rounding depends on every bit of every input and on the order of a hash map; tests compare a few sums up to a tolerance", "anchors": ["crates/RustQuant_math/src/statistic.rs", "crates/RustQuant_math/src/sequences.rs", "crates/RustQuant_portfolios/src/lib.rs"]}
{"id": "C93", "title": "Binary64 order statistics are exact and handle NaN as stated", "statement": "The minimum and maximum are elements of the vector, bound every number and ignore NaNs; for a vector of NaNs they are plus and minus infinity. The range bounds every difference. Sorting, and so the median and the interquartile range, panics exactly when there are at least two elements and one is a NaN. At least half of the elements lie on each side of the median, which is the central element, or the midpoint of the two central elements up to rounding; it may overflow. The quartiles used have the stated numbers of elements on each side.", "quantifier": "every list of binary64 numbers including NaN, infinities and signed zeros, of any length", "why_tests_cant": "NaN and overflow cases are spread over all positions and lengths; tests use short finite vectors", "anchors": ["crates/RustQuant_math/src/statistic.rs"]}
{"id": "C94", "title": "Binary64 quantiles stay between neighbouring elements and are monotone", "statement": "For vectors of up to 2^53 elements, a quantile or percentile panics exactly for an empty vector, a level that is not in [0,1], or a NaN among at least two elements, and never for an index out of bounds. When no difference of two elements overflows, the result lies between the two neighbouring elements of the sorted vector, within rounding error of their interpolation, does not decrease with the level, and is the minimum at 0 and the maximum at 1. Otherwise the result may be infinite.", "quantifier": "every vector of up to 2^53 binary64 numbers and every pair of levels", "why_tests_cant": "whether rounding carries the index past the end or the value past its neighbour depends on every bit of the level and the data", "anchors": ["crates/RustQuant_math/src/statistic.rs"]}
{"id": "C95", "title": "Binary64 sequences: length, order, accuracy and termination", "statement": "An equally spaced grid panics exactly when the start is not below the end or the count is zero, has the requested length, starts exactly at the start, does not decrease and is within rounding error of the exact points; its last point need not be the end, with one point it is a NaN, and it starts with a NaN when the length of the interval overflows. An arithmetic sequence contains the start plus multiples of the step up to rounding, exactly until the end is exceeded; it terminates when the step is not absorbed by rounding, rejects a zero step, never terminates when the step is absorbed, and may contain an element too many.", "quantifier": "every start, end, step and count in binary64", "why_tests_cant": "termination for every triple of numbers; a test that hangs is a counterexample nobody writes", "anchors": ["crates/RustQuant_math/src/sequences.rs"]}
{"id": "C96", "title": "Binary64 linear interpolation is exact at knots and accurate between them", "statement": "On increasing finite abscissae, a NaN point panics, a point outside is refused, a knot returns its ordinate unchanged, and any other point is within an explicit rounding error of the exact interpolation on the segment that contains it. The result lies between the neighbouring ordinates when the weight does not round to one; otherwise it may exceed both.", "quantifier": "every table of binary64 points and every query", "why_tests_cant": "overshoot appears only for particular combinations of bits of five numbers", "anchors": ["crates/RustQuant_math/src/interpolation/linear_interpolator.rs"]}
{"id": "C97", "title": "Movable feasts follow the moon and agree across countries", "statement": "Every date in the tables of movable feasts of Hong Kong, India, Indonesia and Singapore is a date of the calendar in the years of its table, falls at the phase of the moon of its feast, and is the right number of days from the neighbouring feast of the same religion and from the same feast in the other countries; every year of a table has an entry.", "quantifier": "every date and every pair of dates in thirty tables", "why_tests_cant": "an entry one day or one month off passes any test of other dates; only a law that binds all entries of all tables together exposes it", "anchors": ["crates/RustQuant_time/src/countries/hong_kong.rs", "crates/RustQuant_time/src/countries/india.rs", "crates/RustQuant_time/src/countries/indonesia.rs", "crates/RustQuant_time/src/countries/singapore.rs"]}
{"id": "C98", "title": "Root finders keep their guarantees in binary64 arithmetic", "statement": "With the rounding, infinities and NaN of f64: each solver returns a value for every objective when the accuracy is positive and panics otherwise. A returned value is 0.0 (search given up), or a point with a negligible computed residual, or, for Brent and bisection, a point within a stated distance (the accuracy plus a few rounding errors) of a point where the computed function has the other sign; for Newton, a point whose last step is below the accuracy. Brent's method evaluates and returns only points of the enforced interval. Bisection may return a point outside the enforced interval, gives up on an interval wider than the largest f64, and all solvers answer 0.0 for a NaN objective; exact witnesses show these.", "quantifier": "all objectives from f64 to f64 (total functions, NaN included), all brackets, guesses, accuracies and iteration limits", "why_tests_cant": "the guarantees are lost only for particular bit patterns (rounded midpoints, products that underflow to zero, NaN comparisons) that no finite set of objectives visits", "anchors": ["crates/RustQuant_math/src/rootfinding/bisection.rs", "crates/RustQuant_math/src/rootfinding/brent.rs", "crates/RustQuant_math/src/rootfinding/newton_raphson.rs", "crates/RustQuant_math/src/rootfinding/rootfinder.rs"]}
{"id": "C99", "title": "The fractional processes return paths with the covariance of fractional Brownian motion", "statement": "A FractionalBrownianMotion, FractionalOrnsteinUhlenbeck or FractionalCoxIngersollRoss object can be made exactly for Hurst indices in [0,1]. generate then returns the grid of times and m_paths paths of n_steps + 1 finite values, serial or parallel. The values of fractional Brownian motion are the start plus linear forms of the independent normals drawn for that path, with covariance (s^2h + t^2h - |s-t|^2h)/2 at the reported times; those of the constant-parameter Ornstein-Uhlenbeck process are the mean-reverting level plus the same noise filtered by (1 - theta dt). The Cox-Ingersoll-Ross process takes the steps of the ordinary one and rejects negative volatility. Equal seeds give equal paths.", "quantifier": "every Hurst index, generator method, scheme, horizon, step and path count, seed, schedule and sequence of draws", "why_tests_cant": "the covariance is a statement about all draws and all grids; sampling tests pass although the Euler scheme scales the noise by an extra sqrt(dt), late starts use the wrong horizon and the Fourier method ignores the seed (all three refuted)", "anchors": ["crates/RustQuant_stochastics/src/fractional_brownian_motion.rs: FractionalBrownianMotion", "crates/RustQuant_stochastics/src/fractional_ornstein_uhlenbeck.rs: FractionalOrnsteinUhlenbeck", "crates/RustQuant_stochastics/src/fractional_cox_ingersoll_ross.rs: FractionalCoxIngersollRoss", "crates/RustQuant_stochastics/src/fractional_process.rs: simulate_fractional_stochastic_process"]}
{"id": "C100", "title": "Reverse-mode gradients computed in binary64 have a small backward error", "statement": "For every program of arithmetic operations (+, -, *, /, negation, reciprocal, square root) on variables and constants, accumulate and wrt answer for every variable of the graph. If the adjoints are finite and no product underflows, the reported gradient is exactly the gradient of a graph of the same shape whose partial derivatives are each changed by a relative (1+2^-53)^(k+1)-1 at most, where k is the number of uses of the operand; and it differs from the exact gradient of the recorded graph by at most ((1+2^-53)^(3n)-1) times the gradient with absolute partials. Each operator records a correctly rounded value and partial derivatives within two roundings of the derivatives. The difference of two variables is the correctly rounded difference, the quotient is two roundings away from the quotient. The gradient of an input variable is never an infinity: an overflowing derivative is reported as NaN.", "quantifier": "every straight-line program over the listed operations and every binary64 constant in it, any length", "why_tests_cant": "the number of roundings grows with the graph and overflow, underflow and NaN appear only for particular values; tests compare a few functions at a few points", "anchors": ["crates/RustQuant_autodiff/src/accumulate.rs: accumulate", "crates/RustQuant_autodiff/src/gradient.rs: wrt", "crates/RustQuant_autodiff/src/graph.rs: push, var", "crates/RustQuant_autodiff/src/overload.rs: Add, Sub, Mul, Div, Neg, recip, sqrt"]}
{"id": "C101", "title": "Variables compare, classify and round as binary64 values", "statement": "On variables whose value is not NaN the comparison of variables is a total preorder that agrees with the order of the values, and equality implies an equal comparison; a variable equals itself exactly when its value is not NaN. Every variable is exactly one of NaN, infinite, zero, subnormal and normal, and each test means what its name says. Rounding gives the nearest integer, half away from zero, and changes only the value read from the variable: its derivatives stay those of the unrounded expression. Reading several derivatives gives one entry per variable, in order. The contracts of Eq and Ord do not hold when NaN is involved, and equal comparison does not mean equality.", "quantifier": "all variables with any binary64 value (zeros of both signs, subnormals, infinities and NaN), all graphs and indices, all lists of variables", "why_tests_cant": "order laws range over triples of arbitrary floats, and the classes over all 2^64 bit patterns; tests sample ordinary values", "anchors": ["crates/RustQuant_autodiff/src/variable.rs: Variable, PartialEq, PartialOrd, Ord, round, signum, is_normal, is_subnormal", "crates/RustQuant_autodiff/src/vertex.rs: Vertex::new_binary, new_unary, new_nullary", "crates/RustQuant_autodiff/src/gradient.rs: Gradient::wrt"]}
{"id": "C102", "title": "Numerical integration in binary64 stays close to the integral", "statement": "For an integrand computed with a known accuracy, bounded and Lipschitz near the interval, integrate returns a finite number whose distance from the exact rule, and from the integral, is bounded explicitly by the error of the integrand, its variation over a displacement of a few units in the last place of the limits, and a few hundred rounding errors; for the exponential the bound is fully explicit. The tables are the doubles nearest to the decimals of the source. The integrand may be evaluated slightly outside the interval, never further than the stated slack, and values there count; an interval wider than the largest double gives NaN; an integrand that is nowhere finite gives zero.", "quantifier": "all integrands from binary64 to binary64, all finite limits up to 2^500 in either order, all bounds, Lipschitz constants and accuracies", "why_tests_cant": "the error bound ranges over all functions, limits and roundings; the one unit test integrates one function once", "anchors": ["crates/RustQuant_math/src/integration.rs: integrate, tanhsinh, ABSCISSAE, WEIGHTS"]}
{"id": "C103", "title": "Payoffs and Monte-Carlo prices in binary64", "statement": "With finite non-negative prices, strikes and barriers, the vanilla, barrier, lookback and supershare payoffs are the mathematical payoffs rounded once, the vanilla one is exact when price and strike are within a factor two, and it is positive exactly in the money. Binary payoffs are exact. A knock-in and the matching knock-out are always the vanilla payoff and zero in some order. The arithmetic Asian payoff is within a stated bound of the exact one. The Monte-Carlo price is within ((1+u)^(n+1)-1) times the discounted mean magnitude of the payoffs, plus three times the underflow unit, of the discounted mean of the computed payoffs; it is not negative for non-negative payoffs and does not fall when a payoff rises. False: that a NaN price shows in the payoff or in the Monte-Carlo price: it pays zero and the path is still counted.", "quantifier": "All binary64 strikes, prices, barriers and paths of any length, both signs of NaN, all payoff functions and any number of paths", "why_tests_cant": "A test compares a few payoffs with a tolerance; it cannot show that every payoff is correctly rounded, nor bound the error of a sum of any number of payoffs.", "anchors": ["crates/RustQuant_instruments/src/options/vanilla.rs: payoff", "crates/RustQuant_instruments/src/options/asian.rs", "crates/RustQuant_instruments/src/options/barrier.rs", "crates/RustQuant_instruments/src/options/binary.rs", "crates/RustQuant_instruments/src/options/lookback.rs", "crates/RustQuant_instruments/src/options/supershare.rs", "crates/RustQuant_instruments/src/monte_carlo_pricer.rs: price_monte_carlo"]}
{"id": "C104", "title": "Euler-Maruyama paths in binary64", "statement": "For Brownian motion, arithmetic and geometric Brownian motion, Ornstein-Uhlenbeck, Hull-White, extended Vasicek and Ho-Lee, value i of a simulated path differs from the exact Euler recursion driven by the same noise by at most ((1+u)^(6i)-1) times a majorant of the exact path plus i underflow units scaled by the growth of the path. Times start at t_0, never decrease and are within a stated bound of the exact grid. A path of any process that becomes infinite or NaN never becomes finite again, and a NaN stays NaN. A geometric path that reaches zero stays there. False: that the last time is t_n; that times are distinct; that a Cox-Ingersoll-Ross path survives a step below zero.", "quantifier": "All binary64 parameters, initial values and intervals, all noise sequences, any number of steps", "why_tests_cant": "A test simulates a few seeds; a rounding error bound over every noise sequence and any number of steps is a statement about all of them.", "anchors": ["crates/RustQuant_stochastics/src/simulation.rs: simulate_stochatic_process", "crates/RustQuant_stochastics/src/process.rs: generate", "crates/RustQuant_stochastics/src/geometric_brownian_motion.rs", "crates/RustQuant_stochastics/src/ornstein_uhlenbeck.rs", "crates/RustQuant_stochastics/src/cox_ingersoll_ross.rs", "crates/RustQuant_stochastics/src/hull_white.rs", "crates/RustQuant_stochastics/src/ho_lee.rs"]}
{"id": "C105", "title": "Year fractions in binary64", "statement": "In IEEE double precision, every day-count convention except Actual/Actual returns the double nearest to its exact year fraction (so it never returns NaN or an infinity, preserves order, and is exact on whole quarters) and panics exactly when the exact convention does. With a constant divisor the fraction is zero only for equal dates, changes sign when the dates are swapped, strictly increases with the end date, and is additive up to the rounding of the parts; it is not exactly additive. Actual/Actual ISDA and AFB are within 4u(|years|+2) and 2u(|years|+3) of the exact fraction (u = 2^-53); ISDA is not the nearest double, and gives different fractions to one-day periods of the same year. The factors of a list of dates are those of its consecutive pairs.", "quantifier": "all conventions and all valid dates (years -9999 to 9999), all lists of dates", "why_tests_cant": "The rounding depends on the pair of dates; there are about 5*10^13 pairs per convention, and tests compare a few with a tolerance that hides the rounding.", "anchors": ["crates/RustQuant_time/src/day_counting.rs: DayCountConvention::day_count_factor", "crates/RustQuant_time/src/calendar.rs: day_count_factors"]}
{"id": "C106", "title": "The fast Fourier transform in binary64", "statement": "For every complex vector whose length n is a power of two, every coefficient that fft_complex computes in IEEE double precision is within (g^log2(n) - 1) * sum|x_j| + 3(n^log2(3) - 1) * 2^-1075 of the exact discrete Fourier coefficient, where g depends only on the accuracy of the library's cosine and sine; with functions accurate to one unit roundoff u = 2^-53 the factor is at most 30 u log2(n). Finite data below an explicit threshold give finite coefficients; finite coefficients can only come from finite data.", "quantifier": "all powers of two up to 2^53, all vectors, all library cosines and sines of a given accuracy", "why_tests_cant": "The rounding errors depend on all the data and on the length; the recursion has unbounded depth.", "anchors": ["crates/RustQuant_math/src/fft.rs: fft_complex, fft_complex_inplace, fft_complex_calculation"]}
{"id": "C107", "title": "The explicit finite-difference price survives rounding", "statement": "The explicit pricer evaluated in binary64 is stable and accurate. When the three computed weights are not negative, no value on the grid ever exceeds the largest input (payoff, boundary or exercise value) by more than the factor (1+u)^(4k) after k time steps, so nothing overflows. Under the stability condition of the exact scheme, with weights within delta, payoffs, boundary and exercise values within eps, and the discount factor within gamma of the exact ones, the computed price is finite and differs from the exact explicit price by at most 2(gamma+4u+n(delta+4u))M+2eps plus an underflow term, n being the number of time steps and M the size of the inputs. It is not true that an expired option is rejected: a European option whose expiry precedes the evaluation date costs NaN, and an American one costs zero even in the money.", "quantifier": "all parameters, grid sizes, numbers of time steps, both option types, European and American exercise, and all library implementations of exp and ln", "why_tests_cant": "Whether thousands of rounded time steps amplify errors depends on the parameters, the grid and the time steps; a test sees one price on one grid.", "anchors": ["crates/RustQuant_instruments/src/options/finite_difference_pricer.rs: FiniteDifferencePricer::explicit, tridiagonal_matrix_multiply_vector, american_time_stop_step"]}
{"id": "C108", "title": "The explicit finite-difference price, from arguments to result", "statement": "Given a library exponential accurate to a relative error mu and a logarithm of the spot accurate to lam, the explicit pricer evaluated in binary64 returns a finite price whose distance from the price of the exact explicit scheme with the same parameters is at most 2M(8mu + 4nu + (40rT+16)u + n(40K+204+20dx)u) plus an underflow term: M is the largest value on the grid, nu the error of a grid node, n the number of time steps, K a bound on the logarithm of the spot in half grid widths. In particular the three computed weights are finite and together within (40K+200+20dx)u of the exact ones, whatever the logarithm returns within that bound.", "quantifier": "all spot prices, strikes, rates, volatilities and times to expiry between 2^-100 and 2^100 (strike and spot: positive, grid below 2^900), all u32 grid sizes meeting the stability condition, both option types, European and American exercise, all library implementations of exp and ln within the stated accuracy", "why_tests_cant": "Cancellation in the grid spacing and in the drift weight depends on every parameter together; a test compares one price with a tolerance chosen for it.", "anchors": ["crates/RustQuant_instruments/src/options/finite_difference_pricer.rs: FiniteDifferencePricer::explicit, payoff, call_boundary, put_boundary, american_time_stop_step"]}
{"id": "C109", "title": "Activation functions in binary64", "statement": "In double precision the f64 sigmoid (and logistic) is a finite number in [0, 1] for every numeric input, infinities included, never decreases, maps NaN to NaN, and on inputs up to 610 in size is within a small multiple of the unit roundoff and of the exponential's relative error of the exact value, with values at x and -x summing to one up to that error. relu returns exactly max(x, 0) and 0 on NaN; the autodiff relu returns the same value below 2^1023 but overflows from there on and keeps NaN. softplus has a small absolute error, but returns ln 1 when the exponential is below the unit roundoff and infinity when the exponential overflows. The f64 gaussian computes exp(x^2) accurately, is even bit for bit and infinite at 27. gelu is accurate on numbers up to 2^500 and NaN at minus infinity.", "quantifier": "every binary64 input, every exponential, logarithm and error function meeting the stated accuracy", "why_tests_cant": "A test evaluates a few points with one libm; range, monotonicity and error bounds range over all doubles and every admissible libm.", "anchors": ["crates/RustQuant_ml/src/activations.rs: ActivationFunction for f64, ActivationFunction for Variable::relu"]}
{"id": "C110", "title": "Closed-form option prices in binary64", "statement": "In double precision both Black-Scholes-Merton pricers (the option models and the date-based option) return a finite price whose distance from the closed form is at most an explicit bound times the discounted forward plus the discounted strike; the bound is made of the errors of exp, ln and the normal distribution function and of units of roundoff times the size of d1's numerator over the deviation. Delta is within the same bound times the carry factor, and put-call parity holds up to twice the bound. At expiry the price is the correctly rounded payoff, except at the money where it is NaN; after expiry it is NaN.", "quantifier": "every call or put, every finite spot, strike, time and volatility between 2^-40 and 2^40, every pair of rates with (|b| + |r|) t <= 600, every exp, ln and cdf of the stated accuracy; at expiry every positive finite spot, strike and volatility", "why_tests_cant": "A test compares a few prices with a table to a fixed tolerance; how the error grows as volatility or time shrinks, and the behaviour on the expiry date, range over all doubles and every admissible libm.", "anchors": ["crates/RustQuant_instruments/src/options/option_models.rs: bsm::{d1, d2, call_price, put_price, call_delta, put_delta}", "crates/RustQuant_instruments/src/options/black_scholes_merton.rs: BlackScholesMerton::{price, d1_d2}"]}
{"id": "C111", "title": "Cash flows, legs, quotes and money in binary64", "statement": "In double precision: adding two cash flows of one day gives the same bits in either order, subtracting is adding the negative and flows of different days cannot be combined; a leg is worth the sum of its discounted amounts up to one rounding per product and per addition, whatever the order of the flows, and larger amounts never lower it; a quote that has a value is equal to the new value after being set, for any two doubles; money arithmetic is one rounding of the exact result, a difference is zero or negative exactly when the amounts are equal or ordered, equality is reflexive exactly on amounts that are numbers; converting at a rate and back at its reciprocal restores the amount up to 12 units of 2^-53.", "quantifier": "every double (NaN and infinities included where stated), every leg of any length and any permutation of it, every pair of currencies, every positive amount and rate in the stated ranges", "why_tests_cant": "Rounding, signed zeros, underflow and NaN make each law hold or fail at particular doubles; a unit test samples a handful of round numbers.", "anchors": ["crates/RustQuant_cashflows/src/cashflow.rs: Cashflow::{npv, add, sub, mul, div, neg}", "crates/RustQuant_cashflows/src/legs.rs: Leg::{npv, add_cashflow}", "crates/RustQuant_cashflows/src/quotes.rs: SimpleQuote::set_value", "crates/RustQuant_instruments/src/fx/money.rs: Money operators and comparisons", "crates/RustQuant_instruments/src/fx/exchange.rs: ExchangeRate::convert"]}
{"id": "C112", "title": "Nearest neighbours in binary64", "statement": "In double precision the classifier answers on all finite data, under every metric and for any k > 0; it panics exactly when k is 0, there is no sample, or a distance is NaN and there are at least two samples. The neighbours are the k samples of smallest computed distance, ties by position; a Euclidean distance has a relative error of about three units of 2^-53 per coordinate, so a chosen sample is in truth hardly further away than one that was not chosen. The answer is a label whose class, truncated to an integer, has the most votes.", "quantifier": "every list of samples, labels and queries of doubles (NaN and infinities included), every k, every metric and every powi and powf that keep numbers that are not negative so, every dimension up to 2^40 for the accuracy", "why_tests_cant": "A test classifies one small table of round numbers; overflow, NaN, ties produced by rounding and the size of the rounding error range over all doubles and dimensions.", "anchors": ["crates/RustQuant_ml/src/k_nearest_neighbors.rs: KNearestClassifier::{new, predict, predict_one, find_neighbors}"]}
{"id": "C113", "title": "Gradient descent in binary64", "statement": "In double precision the optimizer returns the point after some number of steps. Either its gradient passes the test, or all the iterations were used, and no earlier point passed. A gradient that passes has an exact norm below the tolerance up to rounding. If the exact step contracts by q towards a target and the computed gradient is within eps of an exact one, the optimizer never panics and after j steps every coordinate is within q'^j B + N/(1-q') of the target, with q' = q + 4*2^-53 and a floor N made of the gradient error and of one rounding of a coordinate. A NaN coordinate stays NaN, and a NaN gradient is never stationary.", "quantifier": "every objective, learning rate, tolerance, starting point of any dimension (up to 2^40 for the accuracy of the test) and iteration limit", "why_tests_cant": "A test descends one function from one point; the effect of rounding, stalling, NaN and overflow on the whole path ranges over all objectives, points and step counts.", "anchors": ["crates/RustQuant_math/src/optimization/gradient_descent.rs: GradientDescent::{new, optimize}, GradientDescentResult"]}
{"id": "C114", "title": "Accuracy of variance, covariance and standard deviation in binary64", "statement": "In double precision a finite sample covariance of two samples of n numbers is within an explicit bound of the exact covariance of those numbers about their exact means: a relative error of about (n + 3) roundings on the sum of the magnitudes of the products of deviations, plus the effect of the error of the two computed means. The same bound holds for the sample and population variances. The standard deviation is within the square root of the bound for the variance, plus one rounding. The covariance does not overflow when the numbers are at most 2^480 in magnitude and there are at most 2^40 of them.", "quantifier": "every pair of equally long samples of at least two finite doubles (up to 2^53 of them; up to 2^40 for the absence of overflow)", "why_tests_cant": "A test compares a few samples to a tolerance; cancellation and the growth of the rounding error with the length and with the distance of the mean from zero range over all samples.", "anchors": ["crates/RustQuant_math/src/statistic.rs: Statistic::{sample_variance, population_variance, standard_deviation, covariance}"]}
{"id": "C115", "title": "Correlation in binary64 stays close to one", "statement": "In double precision a finite correlation of two samples of n numbers is at most 1 + 3((1+2^-53)^n - 1) + 16*2^-53 in magnitude, provided both computed standard deviations lie between 2^-400 and 2^500. Under the same condition the correlation of a sample with itself is within 5*2^-53 of one. Outside that range the bound fails: with deviations near 2^-537 a correlation of 1.2 is returned.", "quantifier": "every pair of equally long samples of at least two and at most 2^40 doubles with standard deviations in the stated range", "why_tests_cant": "A test checks one sample; the excess over one comes from rounding in the products, sums, roots and quotient, and ranges over all samples and lengths.", "anchors": ["crates/RustQuant_math/src/statistic.rs: Statistic::{correlation, covariance, standard_deviation}"]}
{"id": "C116", "title": "Skewness and kurtosis in binary64", "statement": "In double precision, reflecting every number of a sample negates its skewness exactly and leaves its kurtosis exactly unchanged, whenever the result is finite and the standard deviation positive. They panic exactly on samples of fewer than three and four numbers. When the computed standard deviation is zero, as for a constant sample, neither is finite and neither panics.", "quantifier": "every sample of doubles of any length up to 2^53", "why_tests_cant": "A test checks one symmetric sample; that no rounding step breaks the symmetry, and that no sample with zero deviation yields a plausible number, ranges over all samples.", "anchors": ["crates/RustQuant_math/src/statistic.rs: Statistic::{skewness, kurtosis}"]}
{"id": "C117", "title": "Symmetry and signs of covariance and correlation in binary64", "statement": "In double precision exchanging the two samples gives the same covariance and correlation bit for bit, panics and NaN included. Changing the sign of every number of a sample changes the sign of a finite covariance or correlation exactly, and changing both signs keeps it.", "quantifier": "every pair of samples of doubles (up to 2^53 of them for the signs; positive standard deviations with a nonzero product for the sign of the correlation)", "why_tests_cant": "A test compares one pair of samples in both orders; that no rounding, overflow or NaN breaks the symmetry ranges over all pairs.", "anchors": ["crates/RustQuant_math/src/statistic.rs: Statistic::{covariance, correlation}"]}
