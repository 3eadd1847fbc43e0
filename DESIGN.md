# A Rocq model of avhz/RustQuant

## 1. What this is

`rocq/theories` holds a formal model of the logic of RustQuant (source read at
the pinned commit in `/repo`, never built or run here) and machine-checked
theorems about it.  The properties are listed in `properties.jsonl`; the claim
status of each is in `MANIFEST.json`.

Per domain there are up to four files:

* `XModel.v`  - executable (or real-valued) Gallina definitions, each with a
  comment citing the file and lines modelled, and naming every simplification;
* `XSpec.v`   - the small independent vocabulary the theorems are stated in;
* `XProofs.v` - lemmas;
* `XProps.v`  - only the property theorems (`exact lemma`), a concrete
  non-vacuity `Example` beside each one, and `Print Assumptions`.

## 2. Modelling conventions

* **Panics** (`unwrap`, `expect`, `assert!`, indexing, `todo!`) are an explicit
  `None`/`Panic` result.  A theorem that a call does not panic says so.
* **`&mut self`** becomes a function returning the new value.
* **`f64`** is modelled by the real numbers `R` (rounding, overflow, NaN and
  infinities are *not* modelled, except where a comment says otherwise).  Where
  the code only compares and moves numbers this is exact; elsewhere the theorem
  is about the formula in exact arithmetic.  Division by zero and out-of-domain
  `ln`/`sqrt` are excluded by explicit hypotheses, never silently totalised.
  The `F64*` files are the exception: they model vector statistics, sequences,
  linear interpolation, portfolio values, root finding and reverse
  accumulation with IEEE-754 binary64 numbers
  (Flocq's `binary_float 53 1024`), rounding to nearest even, with signed zeros,
  infinities and a single NaN.
* **`u64`/`usize`** are unbounded `N`/`Z`/`nat`; theorems that matter for wrap
  (no subtraction underflow in the order book) are stated explicitly.
* **`HashMap`/`BTreeMap`** are finite maps (association lists sorted by key for
  `BTreeMap`); iteration order of a `HashMap` is never observable in a theorem
  unless it is quantified over.
* **Random numbers, clock, external crates** (nalgebra inverse, statrs special
  functions, `time::Date` internals) are parameters (Section variables) of the
  model, quantified in the closed theorem.
* **`time::Date`** is modelled by a day number together with a proleptic
  Gregorian civil-date conversion defined and proved correct here.

## 3. Plan per property

| Id | Model | Proof idea |
|----|-------|-----------|
| C01 | order book state machine (`LobModel`) | invariant by induction over the operation list; panics are `None` |
| C02 | same | refinement to an abstract book: one list of resting orders sorted by (price, arrival) |
| C03 | same | corollary of the refinement + list sums |
| C04 | same | case analysis under the invariant |
| C05 | same | equality of states under the invariant |
| C06 | same | refutation by concrete trace |
| C07 | tape + reverse sweep over `R` (`AdModel`) | loop invariant: adjoint-weighted value of the remaining prefix; Coquelicot derivatives |
| C08 | same | induction over program |
| C09 | each overload | derivative lemma or refutation |
| C10 | same | concrete refutation |
| C11-C14 | calendar (`CalModel`) over day numbers | search lemmas with fuel, set reasoning |
| C15 | day counting (`DayCountModel`) over civil dates | arithmetic on civil dates (`lia`) |
| C16 | the 2 x 299 table copied from the code | finite check by `vm_compute` lifted by `forallb_forall` |
| C17 | civil-date helpers | arithmetic |
| C18-C20 | sorted point lists over `R` (`InterpModel`) | sortedness + search lemmas |
| C21 | Cox-de Boor recursion | induction on the degree |
| C22, C23 | curve = sorted node list + stored interpolator | map lemmas; refutation |
| C24, C25 | bracket search and bisection loop with fuel | loop invariant + IVT; refutation |
| C26, C27 | recursive FFT over Coquelicot `C` | induction on log length; refutation |
| C28-C30 | sample statistics over `list R` | sums, Cauchy-Schwarz, AM-GM, sorted-list interpolation |
| C31, C32 | payoffs over price paths | real arithmetic |
| C33-C35 | generalised BSM with `N(x) = 1/2 erfc(-x/sqrt 2)`, `erfc` defined by an integral | Coquelicot derivatives |
| C36 | SABR formula | refutation |
| C37-C39 | tridiagonal inverse, explicit scheme, exercise flag | theta/phi recurrences by induction; refutation |
| C40-C43 | portfolios, money, exchange, quotes, legs | finite sums, state machines |
| C44 | gradient descent loop over an abstract objective/gradient | loop invariant; refutation |
| C45, C46 | simulation loop with explicit noise stream | list induction; refutation |
| C47 | closed forms | derivatives |
| C48-C50, C53 | KNN vote, lasso sweep, normal equations, activations | list induction, convexity |
| C51 | pmf/cdf closed forms | finite sums; refutations |
| C52 | sequences | list induction |
| C53-C58 | activations, frequencies, schedules, ratios, least-squares Monte-Carlo | real arithmetic, list induction; refutations |
| C59, C60, C83, C84 | Bachelier and Heston closed forms (`BsmModel`) | Coquelicot derivatives under the integral; complex Riccati equations; branch-cut jump |
| C61-C65, C81 | processes, jumps, fractional noise (`SimModel`, `FgnModel`) | equalities of paths; covariance algebra; refutations |
| C99 | fractional processes end to end (`FracModel`, `FracProps`) | orbit of the driver loop; loadings of linear recursions; uniqueness of a linear form; refutations |
| C66-C68 | gradient descent, accumulation, logistic regression | descent lemma, linearity, concavity |
| C69-C73 | distributions (`DistModel`) | finite and infinite sums, improper integrals |
| C74-C76 | holiday tables (`CountryModel`) | rule language (`CountrySpec`) checked for every year of the tables by reflection |
| C97 | movable feasts (`CountryMoon`) | mean lunations and interval laws, checked over all entries by reflection |
| C77-C80 | implied volatility (`IvModel`) | Taylor remainders, rational cubic algebra, Householder identities |
| C82 | quadrature (`QuadModel`) | verified moments of the tables + polynomial remainder |
| C85-C87 | ISO tables, queue book, DOT text | reflection; list induction; parser of the text |
| C88 | Euler paths with normal noise (`SimMoments`, `SimLimits`) | iterated expectation; moment recurrences; limits |
| C89 | closed-form prices (`GaussExp`, `RiskNeutral`) | Gaussian integrals by completing the square; tower property |
| C90 | Monte-Carlo price (`McPrice`, `McLimit`) | block decomposition of the noise; Lipschitz growth; coupling with the exact solution |
| C91 | finite-difference limit (`FdLimit`, `FdConverge`, `FdPrice`) | consistency by Taylor expansion, discrete comparison with smooth super-solutions, exponential barriers for the edges |
| C92 | sums, means, variances in binary64 (`F64Base`, `F64Sum`) | induction with one relative error per addition; sign cases |
| C93 | order statistics in binary64 (`F64Order`) | embedding of the infinities in R; insertion sort; counting |
| C94 | quantiles in binary64 (`F64Quantile`) | Sterbenz for the fraction; predecessor and midpoint lemmas |
| C95 | grids and sequences in binary64 (`F64Seq`) | error composition; decrease of the distance to the end |
| C96 | linear interpolation in binary64 (`F64Interp`) | error composition; the quantile lemma and its mirror image |
| C98 | root finders in binary64 (`F64Root`, `F64Brent`) | sign of a product under underflow; interval hull invariant of Brent's step; error recursion of the halving |
| C100 | reverse accumulation in binary64 (`F64AdModel`, `F64Ad`, `F64AdOps`) | sweep as a triangular system; relative errors collected per slot; uniqueness of its solution; refutations |
| C101 | variables as values (`F64VarModel`, `F64Var`) | order through the embedding of the infinities in R; canonical mantissas; rounding to the nearest integer |
| C102 | numerical integration in binary64 (`F64QuadModel`, `F64Quad`) | nearest-double certificates for the tables; error composition through nodes, weights and sum; then C82 |
| C103 | payoffs and Monte-Carlo prices in binary64 (`F64PayModel`, `F64Pay`) | one rounding per payoff, gradual underflow, Sterbenz; error composition for averages and prices |
| C104 | Euler paths in binary64 (`F64SimModel`, `F64Sim`) | calculus of approximations (relative factor, majorant, absolute error); error recursion against the exact step of `SimModel` |
| C105 | Year fractions in binary64 (`F64DayModel`, `F64Day`) | correct rounding of the one division; error terms of the sums against the exact factors of `DayCountModel`; refutations by computation |
| C106 | FFT in binary64 (`F64FftModel`, `F64Fft`) | induction on the recursion with a relative factor and an absolute underflow term per level; accuracy of the twiddle factors from digits of pi |
| C107 | Explicit finite differences in binary64 (`F64FdModel`, `F64Fd`) | maximum-norm stability: induction on the time steps with one amplification factor per step, against `FdModel`; NaN propagation for expired options |
| C108 | Explicit finite differences in binary64, from arguments to price (`F64FdGrid`, `F64FdPrice`) | two-sided relative errors of positive quantities `within k x X`, composed through the grid, the weights, the nodes, payoffs, boundaries and exercise values; then C107 |
| C109 | Activation functions in binary64 (`F64Act`, `F64ActMore`) | one plus a non-negative double never overflows; monotonicity of rounding; relative error of a reciprocal; refutations at overflow, absorption and NaN |
| C110 | Closed-form Black-Scholes-Merton prices and delta in binary64 (`F64Bsm`) | relative errors of the factors, absolute error of d1 and d2, Lipschitz constant of the normal distribution function; case analysis on the special values at and after expiry |
| C111 | Cash flows, legs, quotes, money and conversions in binary64 (`F64Cash`) | commutation of IEEE addition bit for bit, sum error bound, a difference of distinct doubles never rounds to zero, relative-error calculus |
| C112 | Nearest neighbours in binary64 (`F64Knn`) | closure of non-negative numbers under the operations, stable sort refined to the sort of C93, two-sided error of sums of squares, invariant of the running vote |
| C113 | Gradient descent in binary64 (`F64Gd`) | loop invariant against the unchecked orbit, two-sided error of the norm, contraction in the largest coordinate with a rounding floor |
| C114 | Accuracy of variance, covariance and standard deviation in binary64 (`F64Cov`) | error of one product of deviations, summed; shift from the computed to the exact means, whose first-order terms cancel; square-root gap |
| C115 | Correlation in binary64 stays close to one (`F64Corr`) | Cauchy-Schwarz on the computed deviations, error of both sums, roots and the quotient |
| C116 | Skewness and kurtosis in binary64 (`F64Skew`) | every operation commutes with a sign up to the sign of zero; finiteness traced back from the result |
| C117 | Symmetry and signs of covariance and correlation in binary64 (`F64Sym`) | commutativity of the rounded product; the sign calculus of C116 |

## 4. Trusted base

* Coq 8.16.1's kernel (the checker `coqchk` accepts every file too).
* The axioms listed by `Print Assumptions`: all come from Coq's standard library
  and are grouped by theorem in section 6.  No axiom, `Parameter`, open
  obligation or kernel switch of our own.
* The reading of the Rust code documented in the model comments.  Coquelicot is
  used for calculus; it adds no axiom.

### Modelled

| Code (under `/repo/crates`) | Model |
|---|---|
| RustQuant_trading: limit_order_book.rs and its submodules | `LobModel` |
| RustQuant_trading: order_book.rs, order.rs, order_side.rs | `BookModel` |
| RustQuant_autodiff: graphviz.rs | `DotModel` |
| RustQuant_autodiff: graph, vertex, variable, overload, gradient, accumulate | `AdModel` |
| RustQuant_time: calendar, date_rolling, utilities, schedule, frequency, day_counting, constants, countries/* | `DateModel`, `CalModel`, `DayCountModel`, `CountryModel` |
| RustQuant_math: interpolation/* ; RustQuant_data: curves.rs | `InterpModel` |
| RustQuant_math: rootfinding/* | `RootModel` |
| RustQuant_math: fft.rs | `FftModel` |
| RustQuant_math: integration.rs | `QuadModel` (with `QuadMath`) |
| RustQuant_math: statistic.rs, sequences.rs, risk_reward.rs | `StatModel` |
| RustQuant_math: distributions/* | `DistModel` (with `SpecialFns`, `RGen`) |
| RustQuant_math: optimization/gradient_descent.rs | `GdModel` |
| RustQuant_instruments: payoffs, monte_carlo_pricer.rs, longstaff_schwartz.rs | `PayoffModel` |
| RustQuant_instruments: option_models.rs, black_scholes_merton.rs | `BsmModel` (Heston's equation: `HestonOde`, `HestonPde`, `HestonTrap`) |
| RustQuant_instruments: implied_volatility.rs | `IvModel` |
| RustQuant_instruments: finite_difference_pricer.rs, option_flags.rs | `FdModel` |
| RustQuant_instruments/fx, RustQuant_cashflows, RustQuant_portfolios, RustQuant_iso/iso_4217.rs | `AcctModel`, `CurrencyTable` |
| RustQuant_iso: iso_3166.rs, iso_10383.rs (tables written by tools/iso_tables.py) | `IsoModel`, `IsoTable` |
| RustQuant_stochastics: simulation.rs, process.rs, the processes | `SimModel` |
| RustQuant_stochastics: fractional_process.rs (noise generators) | `FgnModel` (with `FgnMath`) |
| RustQuant_stochastics: fractional_brownian_motion.rs, fractional_ornstein_uhlenbeck.rs, fractional_cox_ingersoll_ross.rs, the driver in fractional_process.rs | `FracModel` |
| RustQuant_stochastics: nelson_siegel_svensson.rs | `NssModel` |
| Binary64 arithmetic of statistic.rs, sequences.rs, linear_interpolator.rs and portfolio values | `F64Model` |
| Binary64 arithmetic of the root finders (bisection.rs, brent.rs, newton_raphson.rs, rootfinder.rs) | `F64RootModel` |
| Binary64 arithmetic of reverse accumulation and of the operators of overload.rs (no transcendental function) | `F64AdModel` |
| Binary64 values of variables: variable.rs 30-182, vertex.rs 61-98, gradient.rs 43-75 (one NaN, without its sign; formatting left out) | `F64VarModel` |
| Binary64 arithmetic of integration.rs | `F64QuadModel` |
| Binary64 arithmetic of vanilla.rs, asian.rs, barrier.rs, binary.rs, lookback.rs, supershare.rs, monte_carlo_pricer.rs (`exp`, `powf` are parameters) | `F64PayModel` |
| Binary64 arithmetic of the Euler scheme of simulation.rs 22-73 and of the processes without transcendental functions (normal draws are a parameter; no jumps) | `F64SimModel` |
| Binary64 arithmetic of the day-count conventions (day_counting.rs 105-381) | `F64DayModel` |
| Binary64 arithmetic of `fft_complex` (fft.rs 41-57, 96-129); cos, sin and the `log2` of the length check are parameters; `exp(0.0)` is 1.0 | `F64FftModel` |
| Binary64 arithmetic of the explicit finite-difference pricer (finite_difference_pricer.rs 86-104, 185-288); exp and ln are parameters, `powi(2)` is one product, the year fraction is a field | `F64FdModel` |
| Binary64 arithmetic of activations.rs 63-65, 88-132 (`exp`, `ln`, `erf` are parameters; `powi(2)` is one product; `tanh` and the vector versions left out) | `F64ActModel` |
| Binary64 arithmetic of option_models.rs 307-345 and black_scholes_merton.rs 128-140, 165-176 (`exp`, `ln` and the normal distribution function are parameters; `powi(2)` is one product; other Greeks left out) | `F64BsmModel` |
| Binary64 arithmetic of cashflow.rs 49-160, legs.rs 41-48, quotes.rs 50-64, money.rs 38-141, exchange.rs 199-208 (the rate map is left out) | `F64CashModel` |
| Binary64 arithmetic of k_nearest_neighbors.rs 65-145 (nalgebra's distances written out, `powi` and `powf` are parameters, the check on the number of columns left out) | `F64KnnModel` |
| Binary64 arithmetic of gradient_descent.rs 88-218 (the objective is a parameter giving value and gradient) | `F64GdModel` |
| Binary64 arithmetic of statistic.rs 174-205 (`powi` expanded into products) | `F64SkewModel` |
| RustQuant_ml: activations, k_nearest_neighbors, linear/ridge/lasso/logistic regression | `ActModel`, `KnnModel`, `RegModel` (with `MatLib`) |

Every definition cites its lines and lists what it leaves out.

### Not modelled

* Rounding, overflow and (unless a comment says otherwise) NaN and infinities,
  outside the `F64*` files.
* External crates: linear algebra (nalgebra decompositions), `rand`, `time`,
  `polars`, `plotly`, `argmin`, `errorfunctions`, `statrs`, `rayon`.  Where a
  theorem needs one it is a parameter with an explicit specification, and an
  `Example` shows that the specification can be met.
* Code that no `mod` declaration reaches, so it is not part of the library:
  RustQuant_models, instruments/backends, instruments/bonds, option_exercise.rs,
  RustQuant_data/surfaces.rs.
* File input/output, plotting, printing, Python bindings, macros of
  RustQuant_utils, SABR calibration (`argmin`).

## 5. Findings

Properties that do not hold of the code.  Those with a theorem name are refuted
in Coq with a concrete witness; the rest are visible in the model.

**Order book** - a crossed book is reachable (`lob_never_crossed_refuted`).

**Automatic differentiation** - wrong gradients for `log10`, `log2`, `log(base)`,
`min`/`max` with a constant on the left, a constant base with `powf`, ties of `min`
(`ad_log10_refuted`, `ad_log2_refuted`, `ad_log_base_refuted`,
`ad_min_constant_left_refuted`, `ad_max_constant_left_refuted`,
`ad_powf_constant_base_refuted`, `ad_min_tie_refuted`); variables of different
graphs can be joined in a logarithm (`ad_join_refuted`); `f64 += Variable` drops
tracking; the gradient of `cbrt` is NaN below zero. In binary64: a derivative that
overflows is reported as NaN, never as an infinity (`leaf_gradient64`,
`overflowing_gradient_nan_refuted`); a vertex that the output does not use, such as the
square root of 0, turns the whole gradient into NaN (`unused_variable_gradient_refuted`);
`x / x` need not be 1, and is infinite for a subnormal `x`, because division multiplies by
the reciprocal (`division64_by_itself_refuted`).

**Calendars and dates** - ModifiedFollowing/ModifiedPreceding compare only the month
number (`cal_modified_year_refuted`); `business_day_count` and `date_sequence` panic
at 9999-12-31 and `date_sequence` when the end precedes the start;
`get_last_day_of_month` returns the weekday of the first of the next month and
panics in December 9999 (`cal_last_day_of_month_refuted`, `..._panics`).

**Day counts** - 365 Actual chooses 366 by calendar years touched
(`dc_365_actual_refuted`); NL subtracts leap years, not leap days
(`dc_no_leap_refuted`); AFB panics for a 29 February end and ten whole years are not
10 (`dc_afb_panics`, `dc_afb_whole_years_refuted`); ICMA is `todo!`; ISDA panics in
the year 9999; 30U/360 moves any end-of-February end date (it is the US rule exactly
elsewhere, `dc_thirty_u_us`); `infer_frequency` panics on
a 90-day quarter or a 181-day half-year; SemiQuarterly is 6, documented as 8;
`generate_schedule` panics on no dates.

**Holidays** - Singapore treats the 25th of every month as a holiday
(`singapore_25th_refuted`); Argentina lacks New Year's Day; France's Ascension and
Whit Monday are fixed dates; Hong Kong's and Singapore's lunar new year 2014 is
1-2 January; Singapore's Vesak 2005 is in October; the feast of sacrifice at the end
of 2006 is missing in India and Singapore; Indonesia's Eid al-Fitr is missing in
2011-2013 and 2017; India's Muharram has a gap; Hong Kong's Chung Yeung of 2004-2008
is the mid-autumn date a month later (`chung_yeung_refuted`); India's Mahavir Jayanti
2010, Singapore's Deepavali 2009, Hong Kong's Tuen Ng 2009 are a month off the other
tables (`feast_month_refuted`); Israel misplaces Adar in leap years
(`israel_adar_refuted`, `israel_adar_purim_refuted`); Mexico's six-year rule has no
start; China after 2023 has only 1 January; the tables simply end (Hong Kong 2020,
Singapore 2024, Indonesia 2025, India 2029); all markets but None and Weekends panic
on weekdays outside 1901-2199 (`market_panics`).

**Interpolation and curves** - integer index types truncate
(`interp_integer_chord_refuted`); empty interpolators and curves panic; a clamped
B-spline is 0 at the right end (`bspline_unity_on_closed_interval_refuted`);
`set_rate` and shifts leave the interpolator stale (`curve_set_rate_stale_refuted`,
`curve_shift_refuted`).

**Root finding** - bisection may return the wrong end of the bracket
(`bisection_early_exit_refuted`); Newton at a stationary root returns 0
(`newton_stationary_root_refuted`); an exhausted search returns 0 as if it were a
root (`solve_never_wrong_refuted`). In binary64: all three solvers answer 0.0 for an
objective that is NaN everywhere (`nan_objective64_refuted`); rounding takes bisection
out of the enforced interval (`bisection64_interval_refuted`); an interval wider than
the largest f64 makes it give up on a plain sign change (`bisection64_wide_refuted`).

**FFT** - the length check accepts 2^35+1 (`fft_length_check_refuted`); `fft_real`
uses the modulus of the twiddle factor and is a Walsh-Hadamard transform
(`fft_real_magnitude_refuted`, `fft_real_is_walsh`).

**Integration** - a spike between two of the fixed nodes is given the integral zero
(`integrate_misses_spike_refuted`); an integrand that is nowhere finite silently gives
zero (`integrate_nonfinite_refuted`).

**Statistics** - sample variance of one element is NaN; the interquartile range
disagrees with the quantiles (`iqr_quantile_refuted`); `seq` with a negative step and
equal ends does not terminate; the Burke ratio lacks a square root
(`burke_leverage_refuted`).

**Payoffs and simulation pricing** - barrier rebates are never paid
(`barrier_rebate_refuted`); binaries pay 0 at the strike; neighbouring supershares
count a shared strike twice; Longstaff-Schwartz is not discounted to the evaluation
date and ignores immediate exercise (`lsm_not_discounted_refuted`,
`lsm_below_intrinsic_refuted`); Monte Carlo with no paths is NaN.

**Closed forms** - ultima has a wrong sign (`ultima_refuted`); charm differentiates in
time to expiry while theta and color use calendar time (`charm_convention_refuted`);
rho is wrong for Black-76 and Asay-82 (`rho_futures_refuted`); Bachelier Greeks are
undiscounted (`bach_delta_refuted`) and its implied volatility differs between call
and put and is NaN at the money; SABR at the money is 0 or NaN (`sabr_atm_refuted`);
the Heston call price jumps in the expiry where the logarithm crosses its branch cut
(`heston_call_jumps_refuted`, `heston_library_jumps_refuted`).

**Implied volatility** - the middle iteration lacks a division by s
(`middle_step_refuted`); the guard of the control parameter tests the wrong operand
(`control_guard_refuted`); the option method ignores the cost of carry
(`carry_refuted`); `is_below_horizon` is never true.

**Finite differences** - American exercise is honoured only for the dates
`Date::MIN`/`MAX` (`fd_american_refuted`); the tridiagonal inverse is wrong for size 1;
grids of at most 2 steps panic; prices can be negative
(`fd_negative_price_refuted`); boundary and interior use different scales.

**Accounts** - portfolio sums ignore currencies; `Money`'s equality and ordering
disagree (`money_eq_cmp_consistent_refuted`); a quote drops 0 and never clears
(`quote_zero_dropped_refuted`, `quote_none_ignored_refuted`); a leg's value ignores
dates (`leg_npv_ignores_dates_refuted`); weights of a worthless portfolio are NaN.

**Stochastic processes** - Milstein and Strang noise is not scaled by the step
(`milstein_strang_brownian_refuted`), so Brownian motion has the number of steps as its
variance (`milstein_strang_variance_refuted`); the discounted Euler forward is biased
low at every step count (`discounted_forward_bias_refuted`); the Milstein derivative is multiplied by 1e-5
instead of divided (`milstein_correction_refuted`); fractional Euler scales twice
(`euler_fractional_double_scaling_refuted`); seeded Cholesky paths are identical
(`seeded_fractional_paths_identical_refuted`); neighbouring seeds share paths
(`neighbouring_seeds_overlap_refuted`); several jumps collapse into one
(`merton_jump_count_ignored_refuted`); CIR becomes NaN below zero
(`cir_can_leave_domain_refuted`); the stochastic-volatility asset ignores its
volatility (`stochvol_ignores_volatility_refuted`); the Hurst index 1 gives a singular
covariance (`hurst_one_singular_refuted`) and the Cholesky generator panics on it
(`fgn_cholesky_hurst_one_panics`); zero steps give NaN times; the variance of Euler
fractional Brownian motion vanishes as the grid is refined (`fbm_euler_vanishes_refuted`);
a run that starts after zero gets noise for the whole of [0, t_n] (`fbm_start_time_refuted`);
the Fourier method ignores the seed (`fourier_seed_ignored_refuted`); fractional CIR
accepts a negative volatility (`fcir_negative_volatility_refuted`).

**Optimisation and learning** - gradient descent reports the objective at the
previous iterate (`gd_minimum_not_at_minimizer_refuted`, `gd_stationary_start_refuted`);
Nelson-Siegel-Svensson with zero lambda is NaN (`nss_zero_lambda_refuted`); the f64
Gaussian activation grows (`act_gaussian_number_refuted`); KNN ties go to the furthest
class (`knn_two_neighbors_refuted`) and labels are pooled by integer part; SVD
regression on collinear columns divides by zero (`linear_svd_collinear_refuted`);
logistic validation never rejects, one-class and equal-mean data are not fitted and
the cross-entropy has the wrong sign (`logit_*_refuted`).

**Distributions** - see the `_refuted` theorems of `DistDisc`, `DistPois`, `DistCont`
and `DistChi`: Bernoulli cdf and quantile; Binomial pmf overflow, cdf at n, quantile
at 1, mode and median; Poisson pmf overflow and negative support, cdf, quantile and
median; discrete uniform variance and sampling; exponential below 0; chi-squared
quantile and median.  Gamma quantile, median and entropy are `todo!`; integer
truncation affects chi-squared, gamma and Poisson samples.

**Finite differences** - the scheme evolves undiscounted values, but the boundary
values `K e^(-r tau) - e^x` and `e^x - K e^(-r tau)` are already discounted and the
result is discounted once more, so fine grids converge to a put price strictly below
the closed form (`fd_put_limit_refuted`); the bias is bounded by `edge_error`.

**Rounding** - the value of a portfolio depends on the iteration order of a hash map
(`portfolio_order_refuted`); a mean may lie outside its data (`mean_range_refuted`), a
constant vector may have a positive variance, so that its correlation is not refused
(`constant_variance_refuted`), a correlation may exceed one (`correlation_bound_refuted`);
means, medians and quantiles of finite numbers may be infinite; the range of a vector of
NaNs is minus infinity; `linspace` with one point is a NaN and need not end at its end;
`seq` never returns when the step is absorbed (`seq_terminates_refuted`) and may return an
element too many; linear interpolation may overshoot (`interp_overshoot_refuted`);
numerical integration evaluates its integrand outside the interval, where a large value
dominates the result (`integrate64_outside_refuted`), and the integral of zero over an
interval wider than the largest double is NaN (`integrate64_overflow_refuted`).

**NaN prices** - a NaN price does not show: `f64::max` drops it, so vanilla, binary and supershare payoffs of a
NaN price are zero (`payoff_nan_refuted`). One NaN in a path makes the fixed call and the
floating put of a lookback option zero, or the fixed put and the floating call, by the sign of
the NaN (`lookback64_nan_refuted`). A Monte-Carlo price counts such a path as paying nothing
instead of reporting it (`price_mc64_nan_refuted`). A Cox-Ingersoll-Ross
path that steps below zero is NaN from then on (`cir64_nan_refuted`), so it pays zero.

**Time grids** - the last simulated time may fall before or after the end of the interval,
two times may coincide, and the first time is NaN when the length of the interval overflows
or when there are no steps (`times64_end_refuted`).

**Variables** - `Eq` and `Ord` are implemented for variables although NaN is neither equal
to itself nor ordered, NaN compares equal to everything, so that the order is not
transitive, and two variables may compare equal without being equal
(`var_contracts_refuted`); rounding a variable keeps the derivatives of the unrounded
expression (`var_round_gradient_refuted`).

**Codes** - expired markets name a segment as their operating market
(`venue_operator_flag_refuted`); markets with country ZZ resolve to no country
(`venue_country_refuted`).

**Expired options on the grid** - the pricer accepts an expiry before the evaluation date. The
square root of the negative year fraction is NaN and so is the whole grid. A European option
then costs NaN; an American one costs 0, however far in the money it is, because `f64::max`
drops the NaN (`explicit64_expired`, C107).

**Year fractions** - the fractions of adjacent periods do not add up exactly in floating
point (`day_count64_additive_refuted`); an Actual/Actual ISDA fraction inside one year is
not the nearest double and depends on the position of the period (`isda64_nearest_refuted`).

**Activation functions in binary64** - `relu` differs between `f64` and autodiff variables from 2^1023 on (infinite)
and on NaN (`v_relu64_refuted`); `softplus` is `ln 1` once the exponential is below 2^-53 and infinite once it
overflows, although the exact value is positive and within ln 2 of the argument (`softplus64_refuted`);
the `f64` `gaussian` is infinite at 27 when the exponential overflows from 710 on (`gaussian64_even`); `gelu` is
NaN at minus infinity, where its limit is zero (`gelu64_refuted`).

**Closed-form prices on the last day** - with zero time left both pricers return the payoff in and out of
the money, but NaN for an option struck exactly at the spot, because d1 is 0/0 or infinity times zero
(`expiry64`, `expiry64_refuted`); after the expiry every price is NaN (`expired64`).

**Quotes, legs and money in binary64** - an empty quote set to 0.0 stays empty and invalid, `set_value(None)`
never clears a quote, and the change returned between two finite quotes can be infinite
(`quote64_refuted`, `quote64_keep`); splitting a leg in two changes its value (`leg64_split_refuted`);
`Money` claims `Eq` but a NaN amount is not equal to itself (`money64_reflexive_refuted`); converting one
unit at rate 49 and back at 1/49 returns less than one unit (`convert64_refuted`).

**Nearest neighbours in binary64** - an infinite feature shared by a sample and the query makes `predict` panic
(`knn64_infinity_refuted`); a NaN label votes with class 0 and can be the answer (`knn64_nan_label_refuted`);
the truly nearest sample can lose to one that rounds to the same distance (`knn64_nearest_refuted`).

**Gradient descent in binary64** - a step smaller than half an ulp of the point leaves it unchanged, and the loop then
spends all its iterations there with a gradient far above the tolerance and says nothing (`gd64_stall`,
`gd64_stall_refuted`); an infinite tolerance is accepted and reports a minimum of 0.0 (`gd64_minimum_refuted`).

**Correlation of tiny samples** - when the products of deviations underflow, `correlation` can return 1.2 for finite
samples (`correlation64_tiny_refuted`); with standard deviations above 2^-400 the excess over one is a rounding effect
(`correlation64_bound`).

**Skewness of a constant sample** - `correlation` panics on a zero deviation, `skewness` and `kurtosis` return a NaN or an
infinity instead (`skew_kurt64_constant`).

## 6. Assumptions per theorem

Generated by `tools/assumptions.py`.  `Print Assumptions` lists exactly the heading's
axioms for each theorem under it.

### Closed under the global context (no axiom)

* `LobProps.v`: `lob_never_panics`, `lob_consistent`, `lob_refines_specification`, `lob_price_time_priority`, `lob_conserves_shares`, `lob_add_order`, `lob_cancel_order`, `lob_cancel_undoes_add`, `lob_never_crossed_refuted`
* `CalProps.v`: `cal_following_nearest`, `cal_preceding_nearest`, `cal_roll_terminates`, `cal_roll_exhausted_panics`, `cal_roll_keeps_business_days`, `cal_roll_business`, `cal_roll_idempotent`, `cal_following_monotone`, `cal_preceding_monotone`, `cal_roll_dates_pointwise`, `cal_modified_following`, `cal_modified_preceding`, `cal_modified_same_month`, `cal_modified_same_year_month`, `cal_modified_year_refuted`, `cal_business_day_count`, `cal_business_day_count_max_panics`, `cal_business_day_count_additive`, `cal_business_day_count_bound`, `cal_day_counts_windows`, `cal_date_sequence`, `cal_date_sequence_reversed_panics`, `cal_extra_holidays_exact`, `cal_extra_holidays_set`, `cal_extra_holidays_roll_further`, `cal_extra_holidays_count`, `cal_first_weekday_of_month`, `cal_last_weekday_of_month`, `cal_first_day_of_month`, `cal_last_day_of_month_off_by_one`, `cal_last_day_of_month_refuted`, `cal_last_day_of_month_panics`, `cal_is_last_day_of_month`, `cal_is_last_day_of_february`, `cal_leap_years_in_range`, `cal_is_leap`, `cal_days_between_metric`, `cal_weekend_util`, `cal_days_in_years`, `cal_business_day_iff`
* `DayCountProps.v`: `dc_actual_constant`, `dc_actual_laws`, `dc_thirty_plain`, `dc_thirty_european`, `dc_thirty_european_laws`, `dc_thirty_isda_not_additive`, `dc_thirty_360_isda`, `dc_thirty_e_plus`, `dc_thirty_u_february`, `dc_thirty_u`, `dc_thirty_u_us`, `dc_isda_accrues`, `dc_isda_additive`, `dc_isda_whole_years`, `dc_isda_last_year_panics`, `dc_365_leap_value`, `dc_365_actual_refuted`, `dc_no_leap_refuted`, `dc_no_leap_same_date`, `dc_afb_panics`, `dc_afb_whole_years_refuted`, `dc_icma_panics`, `dc_total`, `easter_table_exact`, `easter_is_monday`, `easter_table_range`, `freq_infer_exact`, `freq_month_year`, `freq_quarter_refuted`, `freq_half_year_refuted`, `freq_semi_quarterly_refuted`, `freq_per_year_fits`, `freq_per_year_daily`, `schedule_aligned`, `schedule_empty_panics`
* `InterpProps.v`: `interp_integer_is_left_node`, `interp_integer_chord_refuted`
* `StatProps.v`: `rep_spec`
* `AcctProps.v`: `portfolio_history`, `currency_codes_distinct`, `leg_dates`
* `CountrySpec.v`: `easter_table`, `easter_table_panics`
* `CountryMarket.v`: `market_panics`, `market_business_day`, `new_zealand_matariki`, `argentina_new_year_refuted`, `france_ascension_refuted`, `france_fixed_refuted`, `tables_end`, `china_after_table`, `china_before_table`, `china_closed`, `israel_common_year`, `israel_leap_year`, `singapore_25th_refuted`, `hong_kong_2014_refuted`, `israel_adar_refuted`, `israel_adar_purim_refuted`
* `CountryProps.v`: `argentina_holidays`, `australia_holidays`, `austria_holidays`, `botswana_holidays`, `brazil_holidays`, `canada_holidays`, `chile_holidays`, `czech_republic_holidays`, `denmark_holidays`, `finland_holidays`, `france_holidays`, `germany_holidays`, `hungary_holidays`, `iceland_holidays`, `italy_holidays`, `mexico_holidays`, `netherlands_holidays`, `new_zealand_holidays`, `switzerland_holidays`, `united_kingdom_holidays`, `united_states_holidays`, `hong_kong_holidays`, `hong_kong_coverage`, `singapore_holidays`, `singapore_coverage`, `india_holidays`, `india_coverage`, `indonesia_holidays`, `indonesia_coverage`
* `CountryLunar.v`: `hong_kong_buddhas_birthday_lunar`, `hong_kong_tuen_ng_festival_lunar`, `hong_kong_mid_autumn_festival_lunar`, `india_mahashivratri_lunar`, `india_holi_lunar`, `india_rama_navami_lunar`, `india_mahavir_jayanti_lunar`, `india_dussehra_lunar`, `india_diwali_lunar`, `india_gurunanak_jayanti_lunar`, `singapore_vesak_refuted`, `indonesia_eid_refuted`, `eid_al_adha_refuted`
* `IsoProps.v`: `alpha_2_lookup`, `country_codes_unique`, `country_codes_wellformed`, `venue_operator`, `venue_operator_flag_refuted`, `venue_country`, `venue_country_refuted`
* `BookProps.v`: `order_book_history`, `order_book_sides_independent`, `order_book_price_priority_refuted`
* `DotProps.v`: `dot_text`, `dot_text_faithful`, `dot_edges`
* `CountryMoon.v`: `feast_valid`, `feast_every_year`, `feast_moon`, `feast_intervals`, `chung_yeung_refuted`, `chung_yeung_2006_refuted`, `feast_month_refuted`
* `F64Var.v`: `wrt_all64_spec`
* `F64Cash.v`: `money64_reflexive_refuted`
* `F64Knn.v`: `knn64_new`
* `CoverProps.v`: `dc_no_leap`

### `ClassicalDedekindReals.sig_forall_dec`

* `AdProps.v`: `ad_foreign_index_panics`
* `AcctProps.v`: `portfolio_ignores_currency_refuted`, `exchange_convert_spec`, `leg_npv_ignores_dates_refuted`
* `GdProps.v`: `gd_iteration`
* `ActProps.v`: `act_vector`
* `CoverProps.v`: `wrt_domain`, `graph_vars_spec`, `graph_clear_spec`

### `ClassicalDedekindReals.sig_forall_dec`, `FunctionalExtensionality.functional_extensionality_dep`

* `InterpProps.v`: `interp_new_total`, `interp_cases`, `interp_order_irrelevant`, `add_point_rebuild`, `add_points_rebuild`
* `SplineProps.v`: `bspline_total`, `bspline_basis_local`, `bspline_partition_of_unity`, `bspline_convex_hull`, `bspline_local_control`, `bspline_right_endpoint`, `bspline_clamped_endpoint_zero`, `bspline_unity_on_closed_interval_refuted`
* `RootProps.v`: `bisection_encloses`, `bisection_early_exit_refuted`, `newton_sound`, `brent_step_divisors`, `brent_sound`, `solve_cases`, `solve_total`, `brent_step_interpolates`, `solve_no_root`, `solve_never_wrong_refuted`
* `StatProps.v`: `mean_laws`, `covariance_laws`, `minmax_laws`, `quantile_laws`, `iqr_bounds`, `iqr_quantile_refuted`, `seq_spec`, `seq_negative_step_diverges`, `linspace_spec`, `linspace_one`, `cumsum_spec`, `ratios_leverage`, `burke_leverage_refuted`
* `PayoffProps.v`: `vanilla_identities`, `barrier_identities`, `barrier_rebate_refuted`, `binary_identities`, `lookback_identities`, `lookback_panics`, `supershare_identities`, `laguerre_rows`
* `BachHestonProps.v`: `bach_iv_tables`
* `FdProps.v`: `tridiagonal_inverse`, `tri_mul_is_product`, `tridiagonal_inverse_size_one_refuted`
* `AcctProps.v`: `portfolio_identities`, `update_price_effect`, `update_quantity_effect`, `update_order_irrelevant`, `weights_sum_to_one`, `money_ops`, `money_total_spec`, `money_total_perm`, `money_eq_equivalence`, `money_cmp_spec`, `money_eq_cmp_consistent_refuted`, `library_currencies_consistent`, `convert_round_trip`, `convert_additive`, `no_implied_rates`, `quote_set_spec`, `quote_history`, `quote_reset_invalid`, `quote_zero_dropped_refuted`, `quote_none_ignored_refuted`, `cashflow_algebra`, `leg_npv_linear`
* `GdProps.v`: `gd_monotone_any_rate_refuted`
* `SimProps.v`: `times_spec`, `times_zero_steps_refuted`, `milstein_correction_refuted`, `strang_step_real`, `milstein_step_real`, `merton_jump_count_ignored_refuted`
* `KnnProps.v`: `knn_fractional_labels_refuted`
* `LassoProps.v`: `lasso_loop_sound`, `lasso_coordinate_minimises`, `lasso_sweep_near_optimal`, `lasso_fixed_point_optimal`, `lasso_terminates`, `lasso_large_penalty`, `lasso_intercept`, `lasso_fit_near_optimal`
* `RegProps.v`: `linear_none_optimal`, `linear_residuals`, `linear_recovers`, `linear_qr_optimal`, `linear_svd_optimal`, `linear_methods_agree`, `linear_svd_collinear_refuted`, `ridge_optimal`, `ridge_unique`, `ridge_shrinks`, `ridge_zero_is_linear`
* `DistDisc.v`: `bernoulli_centre`, `bernoulli_cdf_sums`, `bernoulli_cdf_negative_refuted`, `bernoulli_quantile`, `bernoulli_quantile_refuted`, `binomial_pmf_exact`, `binomial_pmf_overflow_refuted`, `binomial_cdf_top_refuted`, `binomial_mode_maximal`, `binomial_mode_certain_refuted`, `binomial_median_refuted`
* `DistPois.v`: `poisson_median_refuted`, `uniform_discrete_cdf`, `uniform_discrete_sample_refuted`
* `DistCont.v`: `uniform_continuous_cdf`
* `DistNew.v`: `constructors_domain`
* `LogitProps.v`: `logit_misclassification`, `logit_validation_refuted`
* `IvCubic.v`: `cubic_nodes`
* `QuadProps.v`: `integrate_nonfinite_refuted`, `integrate_linear`, `integrate_monotone`, `integrate_bounds`, `integrate_reversed`
* `FracProps.v`: `fbm_times`, `fractional_constructors`
* `CoverProps.v`: `graph_zero_spec`, `nrsign_spec`, `gd_new_domain`, `binomial_pmf_domain`, `return_on_var_spec`

### `ClassicalDedekindReals.sig_forall_dec`, `ClassicalDedekindReals.sig_not_dec`, `FunctionalExtensionality.functional_extensionality_dep`

* `RootProps.v`: `bisection_near_zero`, `brent_near_zero`
* `StatProps.v`: `variance_laws`, `variance_singleton`, `correlation_laws`, `correlation_bounded`, `correlation_affine`, `skew_kurt_affine`, `skewness_symmetric`
* `PayoffProps.v`: `mc_average`, `mc_linear_monotone`, `mc_parity`, `mc_edge_cases`, `lsm_single_exercise`, `lsm_exercise_rule`, `lsm_bridge_marginals`
* `GdProps.v`: `gd_result_spec`, `gd_stationary_start_refuted`, `gd_default_tolerance`
* `SimProps.v`: `parallel_equals_serial`, `simulate_shape`, `euler_step_real`, `seeded_reproducible`, `more_paths_extend`, `neighbouring_seeds_overlap_refuted`, `euler_abm_closed_form`, `euler_gbm_closed_form`, `euler_ou_recurrence`, `negative_volatility_panics`, `milstein_strang_brownian_refuted`, `milstein_ignores_horizon_refuted`, `schemes_agree_without_diffusion`, `hull_white_is_ou`, `ho_lee_is_abm`, `ho_lee_negative_theta_panics`, `euler_fractional_double_scaling_refuted`, `stochvol_shape`, `stochvol_ignores_volatility_refuted`, `stochvol_euler`, `merton_jump_term`, `merton_needs_steps_and_rate`, `cir_step_real`, `cir_negative_is_nan`, `nan_is_absorbing`, `cir_can_leave_domain_refuted`
* `NssProps.v`: `nss_short_end`, `nss_zero_lambda_refuted`
* `DistDisc.v`: `bernoulli_moments`, `binomial_moments`, `binomial_shape`
* `DistPois.v`: `poisson_pmf_exact`, `poisson_pmf_overflow_refuted`, `poisson_pmf_negative_refuted`, `poisson_shape`, `poisson_mode_maximal`, `poisson_quantile`, `poisson_quantile_zero_refuted`, `poisson_quantile_panics_refuted`, `uniform_discrete_variance_refuted`, `uniform_discrete_cf`
* `DistCont.v`: `uniform_continuous_edges_refuted`, `exponential_negative_refuted`
* `LogitProps.v`: `logit_one_class_refuted`, `logit_equal_means_refuted`
* `FgnProps.v`: `cholesky_factor`
* `QuadProps.v`: `integrate_lipschitz`
* `FdPrice.v`: `fine_grids`
* `FracProps.v`: `fcir_steps`, `fcir_step_real`, `fcir_negative_nan`
* `CoverProps.v`: `brent_end`

### `ClassicalDedekindReals.sig_forall_dec`, `ClassicalDedekindReals.sig_not_dec`, `Classical_Prop.classic`, `FunctionalExtensionality.functional_extensionality_dep`

* `AdProps.v`: `ad_gradient_exact`, `ad_tape_well_formed`, `ad_empty_fold_panics`, `ad_unary_exact`, `ad_binary_exact`, `ad_constant_right_exact`, `ad_constant_left_exact`, `ad_powi_exact`, `ad_log10_refuted`, `ad_log2_refuted`, `ad_log_base_refuted`, `ad_min_constant_left_refuted`, `ad_max_constant_left_refuted`, `ad_powf_constant_base_refuted`, `ad_min_tie_refuted`, `ad_join_refuted`, `ad_join_keeps_first`
* `InterpProps.v`: `interp_node`, `interp_linear_chord`, `interp_outside`, `interp_linear_monotone`, `interp_empty_panics`, `add_point_local`, `interp_exponential_loglinear`, `interp_exponential_log`
* `CurveProps.v`: `curve_get_node`, `curve_set_get`, `curve_set_rates_get`, `curve_extremes`, `curve_brackets`, `curve_fresh`, `curve_get_insert`, `curve_empty_panics`, `curve_shift_effect`, `curve_shift_nodes`, `curve_shift_refuted`, `curve_set_rate_stale_refuted`
* `RootProps.v`: `newton_stationary_root_refuted`
* `FftProps.v`: `fft_is_dft`, `fft_linear`, `fft_parseval`, `fft_injective`, `fft_length_check`, `fft_length_check_refuted`, `fft_rejects`, `fft_real_magnitude_refuted`, `fft_real_is_walsh`
* `StatProps.v`: `means_ordered`
* `PayoffProps.v`: `asian_identities`, `asian_edge_cases`, `power_identities`, `log_identities`, `lsm_bounds`, `lsm_not_discounted_refuted`, `lsm_below_intrinsic_refuted`
* `BsmProps.v`: `bsm_parity`, `gbsm_parity`, `bsm_opt_agrees`, `first_order_greeks`, `rho_greeks`, `second_order_greeks`, `third_order_greeks`, `gbsm_greeks`, `bsm_opt_greeks`, `black_scholes_equation`, `lambda_is_elasticity`, `ultima_refuted`, `charm_convention_refuted`, `rho_futures_refuted`, `gamma_percent_ok`, `price_bounds`, `price_monotone`, `implied_volatility_unique`, `price_convex`, `price_homogeneous`, `sabr_atm_refuted`
* `BachHestonProps.v`: `bach_parity`, `heston_parity`, `bach_bounds`, `bach_greeks`, `bach_delta_refuted`, `bach_iv_atm_refuted`, `bach_iv_parity_refuted`, `heston_homogeneous`, `heston_gamma_is_delta_derivative`
* `FdProps.v`: `fd_step_solves`, `fd_american_dominates`, `fd_american_intrinsic`, `fd_american_refuted`, `fd_total`, `fd_small_grid_panics`, `fd_put_bounds`, `fd_call_nonneg`, `fd_monotone_in_strike`, `fd_negative_price_refuted`
* `GdProps.v`: `gd_minimum_not_at_minimizer_refuted`, `descent_step`, `gd_monotone`, `gd_converges`, `ad_objective_gradient_of`, `gd_ad_converges`, `ad_directional`
* `SimProps.v`: `cev_one_is_gbm`, `cev_special_cases`, `bdt_diff_exact`, `bdt_constant_sigma`, `gbb_drift_pull`, `acf_total_variance`, `acf_special_cases`, `hurst_one_singular_refuted`, `seeded_fractional_paths_identical_refuted`
* `NssProps.v`: `nss_spot_averages_forward`, `nss_forward_is_derivative`, `nss_long_end`, `nss_dates`, `nss_discount_monotone`
* `KnnProps.v`: `knn_distance_metric`, `knn_minkowski_special`, `knn_neighbors`, `knn_majority`, `knn_panics`, `knn_predict`, `knn_training_point`, `knn_two_neighbors_refuted`
* `DistDisc.v`: `bernoulli_shape`, `binomial_cdf_sums`, `binomial_quantile`, `binomial_quantile_one_refuted`
* `DistPois.v`: `poisson_moments`, `poisson_cdf_refuted`, `uniform_discrete_moments`
* `DistCont.v`: `uniform_continuous_moments`, `exponential_moments`, `exponential_cdf_quantile`
* `DistGauss.v`: `gaussian_moments`, `gaussian_cdf_quantile`
* `DistGamma.v`: `gamma_moments`, `gamma_cdf_mode`
* `DistChi.v`: `chi_moments`, `chi_cdf_integral`, `chi_quantile`, `chi_quantile_capped_refuted`, `chi_quantile_panics_refuted`, `chi_median_refuted`
* `DistCf.v`: `gamma_cf_correct`, `chi_cf_correct`
* `DistEnt.v`: `chi_entropy_correct`
* `ActProps.v`: `act_sigmoid`, `act_relu`, `act_gelu`, `act_tanh`, `act_softplus`, `act_gaussian_variable`, `act_gaussian_number_refuted`, `sigmoid_props`, `relu_softplus_gelu_order`
* `LogitProps.v`: `logit_gradient`, `logit_hessian`, `logit_stationary_maximal`, `logit_fit_result`, `logit_predict_threshold`, `logit_cross_entropy_sign_refuted`
* `IvBlack.v`: `normalised_black_accurate`, `expansions_are_series`
* `IvConst.v`: `constants_accurate`, `control_guard_refuted`
* `IvExp.v`: `small_t_error`, `asymptotic_error`
* `IvCubic.v`: `cubic_slopes`, `cubic_second_derivative`, `cubic_monotone`, `cubic_monotone_decreasing`
* `IvStep.v`: `lower_step_householder`, `upper_step_householder`, `middle_step_newton`, `middle_step_refuted`, `map_inverses`, `map_derivatives`, `segment_objective`
* `IvApi.v`: `exact_iterate_is_returned`, `implied_volatility_exists`, `implied_volatility_answers`, `implied_volatility_parity`, `implied_volatility_scaling`, `round_trip_centre`, `price_is_normalised_black`, `carry_refuted`
* `IvGuess.v`: `first_guess`
* `FgnProps.v`: `fgn_fft_covariance`, `fgn_fft_rejects`, `acf_positive_definite`, `fgn_cholesky_covariance`, `fractional_brownian_paths`, `fgn_cholesky_hurst_one_panics`
* `QuadProps.v`: `integrate_near_polynomial`, `integrate_smooth`, `integrate_power_series`, `integrate_analytic`, `integrate_exp`, `integrate_misses_spike_refuted`
* `HestonProps.v`: `heston_exponents`, `heston_prices_solve_equation`, `heston_prices_short_expiry`, `heston_characteristic_bounded`, `heston_call_jumps_refuted`, `heston_library_jumps_refuted`
* `SimMoments.v`: `euler_mean_is_noiseless`
* `SimLimits.v`: `euler_gbm_moments`, `euler_gbm_strong_error`, `euler_ou_moments`, `euler_abm_moments`, `discounted_forward_bias_refuted`, `milstein_strang_variance_refuted`
* `RiskNeutral.v`: `bsm_risk_neutral`, `gbsm_risk_neutral`, `bsm_tower`, `bachelier_risk_neutral`, `bachelier_tower`
* `McPrice.v`: `mc_unbiased`
* `McLimit.v`: `mc_lipschitz`, `mc_vanilla_error`, `mc_vanilla_converges`
* `FdPrice.v`: `price_below`, `fd_converges`, `fd_limit`, `fd_put_limit_refuted`
* `F64Sum.v`: `sum_error`, `sum_finite`, `sum_order`, `sum_monotone`, `sum_order_refuted`, `portfolio_order_refuted`, `portfolio_monotone`, `mean_error`, `mean_panics`, `mean_range_refuted`, `mean_overflow_refuted`, `variance_nonneg`, `deviation_nonneg`, `single_variance`, `constant_variance_refuted`, `correlation_bound_refuted`, `cumsum_prefix`, `cumsum_monotone`, `correlation_domain`
* `F64Order.v`: `min_spec`, `max_spec`, `min_max_total`, `range_spec`, `sort_spec`, `median_panics`, `median_half`, `median_midpoint`, `median_overflow_refuted`, `iqr_spec`
* `F64Quantile.v`: `quantile_panics`, `quantile_between`, `quantile_range`, `quantile_monotone`, `quantile_ends`, `quantile_overflow_refuted`
* `F64Seq.v`: `linspace_total`, `linspace64_one`, `linspace64_spec`, `linspace_end_refuted`, `linspace_overflow_refuted`, `seq_elements`, `seq_terminates`, `seq_diverges`, `seq_terminates_refuted`, `seq_zero_step`, `seq_count_refuted`
* `F64Interp.v`: `interp64_cases`, `interp_accuracy`, `interp_overshoot_refuted`
* `F64Root.v`: `close64_zero`, `product_test`, `finders64_total`, `solve64_cases`, `bisection64_encloses`, `bisection64_solve`, `nan_objective64_refuted`, `bisection64_interval_refuted`, `bisection64_wide_refuted`
* `F64Brent.v`: `brent64_in_bracket`, `brent64_interval`, `brent64_sound`, `newton64_sound`
* `FracProps.v`: `fou_paths`, `fbm_paths`, `fbm_displacement`, `displacement_variance_unique`, `fbm_start_time_refuted`, `fbm_euler_vanishes_refuted`, `fourier_seed_ignored_refuted`, `fractional_needs_time`, `fcir_negative_volatility_refuted`
* `F64Ad.v`: `gradient64_total`, `gradient64_program`, `gradient64_backward`, `gradient64_forward`, `subtraction64_exact`, `division64_error`, `division64_by_itself_refuted`, `leaf_gradient64`, `overflowing_gradient_nan_refuted`, `unused_variable_gradient_refuted`
* `F64AdOps.v`: `recorded64_exact`, `recorded64_values`, `recorded64_over`, `recorded64_inverse`, `recorded64_sqrt`, `recorded64_two`
* `F64Var.v`: `var_cmp_preorder`, `var_eq_spec`, `var_eq_number`, `var_contracts_refuted`, `var_classes`, `var_sign`, `var_round_spec`, `var_round_gradient_refuted`, `vertex_constructors`
* `F64Quad.v`: `tables64_nearest`, `integrate64_error`, `integrate64_lipschitz`, `integrate64_exp`, `nodes64_near`, `integrate64_outside_refuted`, `integrate64_endpoints`, `integrate64_overflow_refuted`, `integrate64_nonfinite`
* `F64Pay.v`: `vanilla64_rounded`, `vanilla64_total`, `payoff_nan_refuted`, `binary64_exact`, `supershare64_rounded`, `barrier64_parity`, `barrier64_rounded`, `lookback64_rounded`, `lookback64_nan_refuted`, `asian64_error`, `price_mc64_error`, `price_mc64_monotone`, `price_mc64_edges`, `price_mc64_nan_refuted`
* `F64Sim.v`: `euler64_paths`, `times64_spec`, `times64_end_refuted`, `affine64_bm`, `affine64_abm`, `affine64_gbm`, `affine64_ou`, `affine64_hull_white`, `affine64_ho_lee`, `euler64_error`, `gbm64_error`, `gbm64_zero`, `cir64_nan_refuted`
* `F64Day.v`: `day_count64_rounded`, `day_count64_quarters`, `day_count64_fixed`, `day_count64_isda`, `day_count64_afb`, `day_count64_additive_refuted`, `isda64_nearest_refuted`, `factors64_spec`
* `F64Fft.v`: `fft64_error`, `twiddles64_accurate`, `fft64_finite`, `fft64_log_error`
* `F64Fd.v`: `explicit64_bounded`, `explicit64_error`, `explicit64_linear`, `explicit64_expired`
* `F64FdGrid.v`: `weights64_accurate`
* `F64FdPrice.v`: `explicit64_accurate`
* `F64Act.v`: `sigmoid64_range`, `sigmoid64_accurate`, `relu64_exact`, `v_relu64_exact`, `v_relu64_refuted`, `softplus64_accurate`, `softplus64_refuted`, `gaussian64_even`, `gelu64_refuted`
* `F64ActMore.v`: `gaussian64_accurate`, `gelu64_accurate`
* `F64Bsm.v`: `price64_accurate`, `parity64`, `delta64_accurate`, `expiry64`, `expired64`, `expiry64_refuted`
* `F64Cash.v`: `cashflow64_algebra`, `cashflow64_npv`, `cashflow64_scale`, `leg64_accurate`, `leg64_append`, `leg64_order`, `leg64_monotone`, `leg64_split_refuted`, `quote64_set`, `quote64_empty`, `quote64_keep`, `quote64_refuted`, `money64_compare`, `money64_ops`, `money64_difference`, `convert64_round_trip`, `convert64_refuted`
* `F64Knn.v`: `knn64_class`, `knn64_neighbors`, `knn64_distance`, `knn64_nearest`, `knn64_nearest_refuted`, `knn64_predict`, `knn64_total`, `knn64_infinity_refuted`, `knn64_nan_label_refuted`
* `F64Gd.v`: `gd64_new`, `gd64_tolerance`, `gd64_orbit`, `gd64_stationary`, `gd64_nan_gradient`, `gd64_nan`, `gd64_dimension`, `gd64_stall`, `gd64_stall_refuted`, `gd64_minimum_refuted`, `gd64_converges`
* `CoverProps.v`: `put_ultima_refuted`
* `F64Cov.v`: `covariance64_accurate`, `variance64_accurate`, `deviation64_accurate`, `covariance64_finite`
* `F64Corr.v`: `correlation64_bound`, `correlation64_tiny_refuted`, `self_correlation64`
* `F64Skew.v`: `skewness64_odd`, `kurtosis64_even`, `skew_kurt64_domain`, `skew_kurt64_constant`
* `F64Sym.v`: `covariance64_symmetric`, `correlation64_symmetric`, `covariance64_signs`, `correlation64_signs`
