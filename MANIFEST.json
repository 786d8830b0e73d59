{
 "claims": [
  {
   "property": "C01",
   "status": "proved",
   "theorems": [
    "C01"
   ],
   "note": "For an arbitrary solver object (any step function)."
  },
  {
   "property": "C02",
   "status": "proved",
   "theorems": [
    "C02"
   ],
   "note": "For an arbitrary solver object and n >= 0; step(n<0) raises ValueError and skip(n<0) does nothing (C02_ex)."
  },
  {
   "property": "C03",
   "status": "partial",
   "theorems": [
    "C03_partial",
    "C03_refuted"
   ],
   "note": "Refuted: at t_bound step() returns None while step(n=1) raises; step(n=k, upto_t=inf) raises ValueError whenever t_bound is finite. C03_partial has the equivalences that hold."
  },
  {
   "property": "C04",
   "status": "partial",
   "theorems": [
    "C04_partial",
    "C04_variable_partial",
    "C04_refuted"
   ],
   "note": "Refuted: step(n, upto_t=nan) passes t_bound (binary64). Holds for NaN-free calls: fixed step classes in any ordered arithmetic, variable step classes over the reals with 0 <= min_factor <= 1, max_factor >= 0, safety_factor <= 1."
  },
  {
   "property": "C05",
   "status": "partial",
   "theorems": [
    "C05_partial",
    "C05_none",
    "C05_refuted"
   ],
   "note": "Refuted: the constructor ignores t_bound; with a variable step first stepper the start-up times are h, 2h, ... whatever t0 is, or the constructor raises. The grid claim is proved for fixed step first steppers."
  },
  {
   "property": "C06",
   "status": "proved",
   "theorems": [
    "C06",
    "C06_no_pass",
    "C06_no_pass_variable"
   ],
   "note": "Maximal chain of completed steps for any solver object; times <= x for fixed step classes in any arithmetic and variable step classes over the reals with sane factors."
  },
  {
   "property": "C07",
   "status": "proved",
   "theorems": [
    "C07"
   ],
   "note": "For an arbitrary solver object."
  },
  {
   "property": "C08",
   "status": "proved",
   "theorems": [
    "C08",
    "C08_run"
   ],
   "note": "run(t) is run_events(t, [])."
  },
  {
   "property": "C09",
   "status": "proved",
   "theorems": [
    "C09",
    "C09_return"
   ],
   "note": "The RuntimeError may also be one raised inside the step (implicit solver not converging); the theorem lists both causes."
  },
  {
   "property": "C10",
   "status": "proved",
   "theorems": [
    "C10",
    "C10_calls",
    "C10_exact",
    "C10_rounding"
   ],
   "note": "In any arithmetic as a repeated sum, over the reals as t + k h, in floating point up to one rounding per step."
  },
  {
   "property": "C11",
   "status": "proved",
   "theorems": [
    "C11",
    "C11_explicit",
    "C11_run"
   ],
   "note": "Exact arithmetic. Steps must return (C11_explicit: always so for explicit classes and right-hand sides that return)."
  },
  {
   "property": "C12",
   "status": "partial",
   "theorems": [
    "C12_refuted",
    "C12_partial"
   ],
   "note": "Refuted: h <= 0 is accepted and the call never returns; in binary64 neither does h = 1 at t = 2^53. The positive half over the reals is C11. In floating point (C12_partial) the call returns if h >= 2 uro max(|t|, |x|)."
  },
  {
   "property": "C13",
   "status": "proved",
   "theorems": [
    "C13",
    "C13_unsorted"
   ],
   "note": "Any ordered arithmetic, every modelled class. Requests that the integration cannot reach before t_bound are cut off (see C14)."
  },
  {
   "property": "C14",
   "status": "partial",
   "theorems": [
    "C14_partial",
    "C14_refuted"
   ],
   "note": "Refuted: RungeKutta4 with h=1/2, t_bound=3/4 answers run([1/4, 3/5]) with one row. Rows are only missing when a further step would pass t_bound (C14_partial)."
  },
  {
   "property": "C15",
   "status": "proved",
   "theorems": [
    "C15"
   ],
   "note": "For arithmetics where <= is antisymmetric (reals, rationals; binary64 up to the two zeros) and requests that are all answered; the unanswered case is C50."
  },
  {
   "property": "C16",
   "status": "proved",
   "theorems": [
    "C16",
    "C16_forward",
    "C16_forward_variable"
   ],
   "note": "For instances whose recorded times are in order and whose steps go forward; C16_forward* give the latter."
  },
  {
   "property": "C17",
   "status": "proved",
   "theorems": [
    "C17",
    "C17_stepping"
   ],
   "note": "cache, step size and stages agree; only the lazily refreshed interpolator data may differ."
  },
  {
   "property": "C18",
   "status": "proved",
   "theorems": [
    "C18_outside",
    "C18_inside",
    "C18_inside_any",
    "C18_keeps"
   ],
   "note": "Inside the window over the reals (DOP853: when rhs returns); in other arithmetics C18_inside_any lists what can be raised."
  },
  {
   "property": "C19",
   "status": "proved",
   "theorems": [
    "C19",
    "C19_cubic_exact",
    "C19_dims"
   ],
   "note": "Exact arithmetic."
  },
  {
   "property": "C20",
   "status": "partial",
   "theorems": [
    "C20_partial",
    "C20_two_rows",
    "C20_refuted"
   ],
   "note": "Refuted for LEN_HISTORY > 2: the default interpolant only uses the two ends of the window. Proved at the ends, hence for every recorded step of the classes with LEN_HISTORY = 2."
  },
  {
   "property": "C21",
   "status": "proved",
   "theorems": [
    "C21"
   ],
   "note": "Any arithmetic, any sequence of calls, raising or not."
  },
  {
   "property": "C22",
   "status": "proved",
   "theorems": [
    "C22",
    "C22_padding",
    "C22_sorted",
    "C22_sorted_start"
   ],
   "note": "Order of times over the reals."
  },
  {
   "property": "C23",
   "status": "proved",
   "theorems": [
    "C23",
    "C23_step"
   ],
   "note": "Any arithmetic, any sequence of calls."
  },
  {
   "property": "C24",
   "status": "partial",
   "theorems": [
    "C24_partial",
    "C24_recovers",
    "C24_dop_partial",
    "C24_dop_recovers",
    "C24_refuted"
   ],
   "note": "Refuted: after a step whose rhs raised, the stages of the interrupted step are used. Proved while no call raises, and again after the next completed step (exact arithmetic)."
  },
  {
   "property": "C25",
   "status": "partial",
   "theorems": [
    "C25_partial",
    "C25_refuted",
    "C25_events_refuted"
   ],
   "note": "Refuted: step() returns a view of the history, y_events holds views. C25_partial: the view is always the current state. Rows of step(n)/run are copies (values in the model)."
  },
  {
   "property": "C26",
   "status": "proved",
   "theorems": [
    "C26"
   ],
   "note": "params is taken not to be modified by the caller after construction."
  },
  {
   "property": "C27",
   "status": "partial",
   "theorems": [
    "C27_documented",
    "C27_derivative",
    "C27_formula",
    "C27_refuted",
    "C27_defect",
    "C27_partial",
    "C27_startup",
    "C27_startup_exists"
   ],
   "note": "Refuted: AdamsBashforth2 to 5 apply the documented coefficients (newest first) to the stored derivatives (oldest first). For y' = 2 t with exact history a step is off by -2 k h^2, for every t0 and h. C27_documented: the documented formulas do have order k. C27_formula: what the classes compute, any right-hand side. C27_partial: exact for degree <= 1. C27_startup: the start-up rows are exact with RungeKutta4."
  },
  {
   "property": "C28",
   "status": "partial",
   "theorems": [
    "C28_relation",
    "C28_partial",
    "C28_system",
    "C28_refuted",
    "C28_defect"
   ],
   "note": "Refuted for AdamsMoulton4 and 5 (coefficients reversed): on quadratics a step is off by -3 c2 h^2 and -(325/72) c2 h^2. AdamsMoulton1, 2, 3: the implicit equation is satisfied exactly by polynomials of degree <= k (C28_relation), scalar affine steps are exact (C28_partial), systems y' = f(t) within the tolerance 1.48e-8 of newton_hd (C28_system)."
  },
  {
   "property": "C29",
   "status": "proved",
   "theorems": [
    "C29_relation",
    "C29_scalar",
    "C29_system"
   ],
   "note": "C29_relation: polynomials of degree <= k satisfy the implicit equation of the step in any dimension and for any right-hand side. What the root finder makes of it: exact for scalar affine right-hand sides, within 1.48e-8 for systems y' = f(t). Exact history assumed (see C27_startup, C30_bdf_refuted)."
  },
  {
   "property": "C30",
   "status": "partial",
   "theorems": [
    "C30_rk",
    "C30_ab",
    "C30_am_partial",
    "C30_refuted",
    "C30_stall",
    "C30_bdf_refuted"
   ],
   "note": "Refuted: in dimension other than 1 an Adams-Moulton step with |h c| <= 1.48e-8 does not move (newton_hd accepts the start value); BDF2 to 6 without first stepper start with Bn h c instead of h c; the DOP853 weights add up to 1 + 6.6e-30. Proved exact: the other Runge-Kutta classes and Adams-Bashforth in any dimension, Adams-Moulton in dimension 1; BDF with exact history is C29_scalar."
  },
  {
   "property": "C31",
   "status": "proved",
   "theorems": [
    "C31",
    "C31_polynomials",
    "C31_exp"
   ],
   "note": "All rooted trees, exact reals; the orders are sharp. Runge3 reproduces the Taylor polynomial of degree 3 and has a further term z^4/12."
  },
  {
   "property": "C32",
   "status": "partial",
   "theorems": [
    "C32",
    "C32_dop853",
    "C32_refuted"
   ],
   "note": "C32: RungeKutta23 and RungeKutta45, exactly. DOP853's coefficients are 30 digit decimals, so its conditions hold within 1e-28 (C32_dop853) and not exactly (C32_refuted)."
  },
  {
   "property": "C33",
   "status": "partial",
   "theorems": [
    "C33_rk",
    "C33_rk_run",
    "C33_ab",
    "C33_ab_run",
    "C33_ab_default",
    "C33_default_positive",
    "C33_refuted"
   ],
   "note": "Refuted for the Adams-Bashforth classes of order 2 to 5 with their default first stepper and a negative initial time: the rows taken from RungeKutta45 are off by a fixed amount however small h is. Holds (error at most K h after any calls, and in the rows of run) for all fixed step Runge-Kutta classes, for Adams-Bashforth without first stepper or with a fixed step one, and with the default one at initial time 0. Initial time > 0: the constructor raises ValueError for h < t0."
  },
  {
   "property": "C34",
   "status": "proved",
   "theorems": [
    "C34"
   ],
   "note": "Every outcome of step(); exceptions of rhs and numpy.linalg.solve are passed on, also without change."
  },
  {
   "property": "C35",
   "status": "proved",
   "theorems": [
    "C35",
    "C35_returns"
   ],
   "note": "Any coefficients A, B, Bn with as many A as B; the step is also proved to be taken."
  },
  {
   "property": "C36",
   "status": "proved",
   "theorems": [
    "C36",
    "C36_converse",
    "C36_trials"
   ],
   "note": "In exact arithmetic, for FSAL pairs and for DOP853 in numba mode (where a zero order 5 estimate raises, see C38): the trials of a step, both directions, and the bounds on the factor. atol > 0 and rtol >= 0 so that the scaled error means something."
  },
  {
   "property": "C37",
   "status": "partial",
   "theorems": [
    "C37_refuted",
    "C37_ignored"
   ],
   "note": "Refuted: min_step and max_step are stored and never read; RungeKutta23 with max_step = 1/4 takes a step of 1/2. Proved instead: neither option has any effect on any call."
  },
  {
   "property": "C38",
   "status": "partial",
   "theorems": [
    "C38_refuted",
    "C38_raises",
    "C38_numpy_refuted"
   ],
   "note": "Refuted: with a vanishing order 5 estimate DOP853 raises ZeroDivisionError under numba and never returns under plain numpy (NaN error norm rejects every trial), for every instance, dimension and tableau."
  },
  {
   "property": "C39",
   "status": "partial",
   "theorems": [
    "C39_refuted",
    "C39_partial"
   ],
   "note": "Refuted: a step that would pass t_bound is not shortened but refused; RungeKutta23 stays at 1/2 with t_bound = 3/4. Proved: when step() returns None the time is within one step size of t_bound and not beyond it."
  },
  {
   "property": "C40",
   "status": "proved",
   "theorems": [
    "C40"
   ],
   "note": "RungeKutta23, RungeKutta45, DOP853 in exact arithmetic after any sequence of calls that returned; the interpolant is one differentiable curve through both rows with the recorded slopes."
  },
  {
   "property": "C41",
   "status": "proved",
   "theorems": [
    "C41"
   ],
   "note": "Exact arithmetic. `ready` holds for every instance of a fixed step class and for variable step instances reached by step/skip calls; steps are those of the chain taken during the call. Request lists sorted, or unsorted with an argsort that sorts."
  },
  {
   "property": "C42",
   "status": "proved",
   "theorems": [
    "C42"
   ],
   "note": "Exact arithmetic; trigger uses the values of the event function at the two ends of the step, as the statement says."
  },
  {
   "property": "C43",
   "status": "proved",
   "theorems": [
    "C43"
   ],
   "note": "Exact arithmetic; continuity is asked of the event function along the interpolant of that step."
  },
  {
   "property": "C44",
   "status": "proved",
   "theorems": [
    "C44"
   ],
   "note": "Exact arithmetic, sorted requests (unsorted ones: see C50)."
  },
  {
   "property": "C45",
   "status": "partial",
   "theorems": [
    "C45_refuted",
    "C45_last_listed"
   ],
   "note": "Refuted: min_t is never updated, so the last listed terminal event of the step wins, not the earliest. C45_last_listed proves what happens."
  },
  {
   "property": "C46",
   "status": "proved",
   "theorems": [
    "C46",
    "C46_variable"
   ],
   "note": "C46: fixed step classes over any ordered arithmetic, floats included. C46_variable: all classes over the reals. For calls to run_events that return."
  },
  {
   "property": "C47",
   "status": "partial",
   "theorems": [
    "C47_refuted",
    "C47_never_returns"
   ],
   "note": "Refuted: warnings.warning does not exist, so any such request raises AttributeError. C47_never_returns: it never returns."
  },
  {
   "property": "C48",
   "status": "partial",
   "theorems": [
    "C48_refuted",
    "C48_same_step"
   ],
   "note": "Refuted: events listed with a later time in the step of the terminal event are reported. C48_same_step: only those."
  },
  {
   "property": "C49",
   "status": "partial",
   "theorems": [
    "C49_refuted",
    "C49_two_rows",
    "C49_variable",
    "C49_dop853"
   ],
   "note": "Refuted for classes with a history longer than two rows: the interpolant over the whole window need not take the stored values at the ends of the last step, so bisect can raise ValueError. C49_two_rows: for explicit fixed step classes with two rows run_events returns. C49_variable: so it does for RungeKutta23 and RungeKutta45, under the conditions of C85. C49_dop853: DOP853 returns or raises ZeroDivisionError, under the conditions of C95."
  },
  {
   "property": "C50",
   "status": "partial",
   "theorems": [
    "C50_refuted",
    "C50_raises"
   ],
   "note": "Refuted: the reordering index is out of range. C50_raises: it always raises IndexError."
  },
  {
   "property": "C51",
   "status": "proved",
   "theorems": [
    "C51"
   ],
   "note": "Keys are ASCII strings; every operation sequence."
  },
  {
   "property": "C52",
   "status": "proved",
   "theorems": [
    "C52",
    "C52_equivalence",
    "C52_copies"
   ],
   "note": "Independence of the copy: dictionaries are values in the model, copy() builds a new OrderedDict."
  },
  {
   "property": "C53",
   "status": "proved",
   "theorems": [
    "C53",
    "C53_sound",
    "C53_stays"
   ],
   "note": "C53 for histories whose definitions succeed; C53_sound and C53_stays for every history."
  },
  {
   "property": "C54",
   "status": "partial",
   "theorems": [
    "C54_refuted",
    "C54_builder_refuted",
    "C54_len_partial",
    "C54_name_partial",
    "C54_groups_partial"
   ],
   "note": "Refuted: a taken alias is noticed after the class name has been registered; an exception in a step builder comes after registration. Proved for a bad LEN_HISTORY and for a taken class name; a duplicate never changes get_solvers."
  },
  {
   "property": "C55",
   "status": "proved",
   "theorems": [
    "C55",
    "C55_all"
   ],
   "note": ""
  },
  {
   "property": "C56",
   "status": "partial",
   "theorems": [
    "C56_refuted",
    "C56_inverted"
   ],
   "note": "Refuted: IMPLICIT is Bn == 0, so implicit=True returns exactly the explicit multistep classes (C56_inverted)."
  },
  {
   "property": "C57",
   "status": "proved",
   "theorems": [
    "C57"
   ],
   "note": "Flags are Python booleans (check compares with 'is')."
  },
  {
   "property": "C58",
   "status": "partial",
   "theorems": [
    "C58_refuted",
    "C58_dir_refuted",
    "C58_partial",
    "C58_dir_partial",
    "C58_listing"
   ],
   "note": "Refuted: nbkode.euler is the submodule although get_solver('euler') is ForwardEuler; dir(nbkode) is cached and misses later definitions. Proved for names that are not module globals, for the first dir and for list_solvers."
  },
  {
   "property": "C59",
   "status": "proved",
   "theorems": [
    "C59",
    "C59_order",
    "C59_zero"
   ],
   "note": "Exact arithmetic; the function may keep state. maxiter = 0 raises UnboundLocalError and is excluded."
  },
  {
   "property": "C60",
   "status": "proved",
   "theorems": [
    "C60",
    "C60_affine",
    "C60_api",
    "C60_arguments"
   ],
   "note": "Exact arithmetic, scalar unknown."
  },
  {
   "property": "C61",
   "status": "proved",
   "theorems": [
    "C61",
    "C61_affine"
   ],
   "note": "Exact arithmetic, scalar unknown; wrapper functions as in C60_api."
  },
  {
   "property": "C62",
   "status": "proved",
   "theorems": [
    "C62",
    "C62_affine"
   ],
   "note": "Exact arithmetic; np.linalg.solve is a parameter assumed to solve the system when it returns (C62_affine)."
  },
  {
   "property": "C63",
   "status": "partial",
   "theorems": [
    "C63_refuted",
    "C63_partial"
   ],
   "note": "Refuted: the product of two values of size 2^-1074 rounds to zero, so bisect raises ValueError. In exact arithmetic C59 holds. In floating point (C63_partial) every sign change whose product does not underflow is accepted and bracketed."
  },
  {
   "property": "C64",
   "status": "proved",
   "theorems": [
    "C64_isclose",
    "C64_clip"
   ],
   "note": "isclose over the reals, clip in any ordered arithmetic including binary64."
  },
  {
   "property": "C65",
   "status": "proved",
   "theorems": [
    "C65"
   ],
   "note": "All decorator forms in the source; a single positional callable argument is the only exception."
  },
  {
   "property": "C66",
   "status": "proved",
   "theorems": [
    "C66",
    "C66_run"
   ],
   "note": "Exact arithmetic. C66: stored states after any calls. C66_run: rows of run after calls that returned; variable step classes with positive factors and a non-negative first step."
  },
  {
   "property": "C67",
   "status": "proved",
   "theorems": [
    "C67",
    "C67_run"
   ],
   "note": "Exact arithmetic. C67: every state reached after any calls. C67_run: the rows of run (cubic Hermite interpolation). Global Lipschitz bound; error of the linearisation along y at most quadratic."
  },
  {
   "property": "C68",
   "status": "proved",
   "theorems": [
    "C68",
    "C68_init"
   ],
   "note": "Exact arithmetic. np.argsort is assumed to depend only on the order of the times. The variable step first stepper (the default) is excluded: its start-up asks for absolute times, see C05 and C33. Uninitialised memory: unrelated in the two instances, except the stages of a variable step class."
  },
  {
   "property": "C69",
   "status": "proved",
   "theorems": [
    "C69",
    "C69_init"
   ],
   "note": "Exact arithmetic. First steppers: none or an explicit fixed step instance."
  },
  {
   "property": "C70",
   "status": "proved",
   "theorems": [
    "C70",
    "C70_init"
   ],
   "note": "Any scalar type; the matrix product c @ K is summed from left to right for every component (stated in DESIGN.md)."
  },
  {
   "property": "C71",
   "status": "proved",
   "theorems": [
    "C71",
    "C71_run",
    "C71_five",
    "C71_five_run"
   ],
   "note": "Exact arithmetic. The step length bound is a hypothesis on the steps the instance takes; the tolerances alone do not bound it. C71_five: RungeKutta45 has order 5 under one more derivative of the solution and of the Jacobian along it; its dense output has local error of order H^5. C71_run, C71_five_run: after calls that returned."
  },
  {
   "property": "C72",
   "status": "proved",
   "theorems": [
    "C72",
    "C72_step",
    "C72_implicit",
    "C72_A_stable",
    "C72_stable",
    "C72_unstable"
   ],
   "note": "Exact arithmetic. Implicit classes in dimension 1, where the Newton iteration solves affine equations exactly."
  },
  {
   "property": "C73",
   "status": "partial",
   "theorems": [
    "C73_refuted",
    "C73_drift",
    "C73_partial"
   ],
   "note": "Refuted for AdamsBashforth2-5 and AdamsMoulton4-5 (order 1 only: the error on y' = 2t is exactly -D h (t - t_start), D = 4, 6, 8, 10, 3, 325/72; order 1 of Adams-Bashforth is C33). Proved: AdamsMoulton1-3 and BDF1-6 stay exact on polynomials of degree k for scalar affine problems. K h^k for these classes on general problems: C79."
  },
  {
   "property": "C74",
   "status": "proved",
   "theorems": [
    "C74",
    "C74_step",
    "C74_roots",
    "C74_quadrature",
    "C74_linear",
    "C74_stable"
   ],
   "note": "Exact arithmetic. The module cannot be imported (it imports ..order); modelled are its step function and coefficients. The root finder is a parameter that returns a root of the shape of its start value; newton_hd itself is applied to a two-dimensional array and is not modelled for that."
  },
  {
   "property": "C75",
   "status": "partial",
   "theorems": [
    "C75_refuted",
    "C75_partial"
   ],
   "note": "Refuted: B has order 4 and B2 order 5, the documentation has them the other way round. The class is abstract."
  },
  {
   "property": "C76",
   "status": "partial",
   "theorems": [
    "C76_refuted",
    "C76_transposed",
    "C76_partial"
   ],
   "note": "Refuted: out_y[i] is the derivative in direction i, so the matrix is transposed. Proved: exactly the transpose, for every linear right-hand side; correct exactly for symmetric matrices."
  },
  {
   "property": "C77",
   "status": "partial",
   "theorems": [
    "C77_refuted",
    "C77_conditions",
    "C77_nodes",
    "C77_linear",
    "C77_stable",
    "C77_partial",
    "C77_same"
   ],
   "note": "Refuted: with the transposed Jacobian the error of a step on y1' = y2, y2' = 0 is h^2/6 + O(h^4); the embedded formula has order 2, not 3. Proved: the coefficients have order 3; scalar linear and quadrature problems (exact arithmetic, np.linalg.solve and inv assumed to return solutions and inverses)."
  },
  {
   "property": "C78",
   "status": "proved",
   "theorems": [
    "C78",
    "C78_radau",
    "C78_others",
    "C78_consistent",
    "C78_implicit",
    "C78_diagonally",
    "C78_singly"
   ],
   "note": "Exact arithmetic."
  },
  {
   "property": "C79",
   "status": "proved",
   "theorems": [
    "C79",
    "C79_affine",
    "C79_started",
    "C79_run",
    "C79_started_affine",
    "C79_equation",
    "C79_residual",
    "C79_residual_affine",
    "C79_history",
    "C79_floor"
   ],
   "note": "Exact arithmetic. Zero-stability is proved for each class (contracting power of the companion matrix of the differences, exact rational certificates). The constant K is the same for all residuals rho; C79_residual gives rho = 4.44e-8. The rho/h term is needed: C79_floor (AdamsMoulton1 stands still for h <= 1.48e-8 in dimension 2). np.linalg.solve is only assumed to return a vector of the right length."
  },
  {
   "property": "C80",
   "status": "partial",
   "theorems": [
    "C80_refuted",
    "C80_partial",
    "C80_found"
   ],
   "note": "Refuted: the names are computed at the first failed look-up only, so a solver defined after it is never listed. Proved: the first failure lists exactly the available names in order; every later failure lists the same names; successful look-ups do not matter."
  },
  {
   "property": "C81",
   "status": "proved",
   "theorems": [
    "C81",
    "C81_binary64"
   ],
   "note": "Every IEEE operation correctly rounded to nearest even (SpecFloat), weighted sums added from left to right starting at 0 without fused multiply-add; coefficients are the correctly rounded literals. The step must satisfy K (h + eps/h) <= 1."
  },
  {
   "property": "C82",
   "status": "partial",
   "theorems": [
    "C82_refuted",
    "C82_never",
    "C82_partial"
   ],
   "note": "Refuted: the inherited step function takes t_bound as first of six parameters but is called with five arguments, so every step raises TypeError. Proved: no call ever takes a step; given t_bound, the function does what it is meant to do (exact arithmetic)."
  },
  {
   "property": "C83",
   "status": "proved",
   "theorems": [
    "C83",
    "C83_total"
   ],
   "note": "Exact arithmetic. np.linalg.solve is a parameter assumed to solve regular systems (dimension 2 and more; in dimension 1 it is not called). Contraction of the secant iteration and of the finite difference Newton iteration for maps close to the identity."
  },
  {
   "property": "C84",
   "status": "proved",
   "theorems": [
    "C84",
    "C84_variable",
    "C84_implicit",
    "C84_five",
    "C84_dop853"
   ],
   "note": "Exact arithmetic. Combines the crossing test and bisection of the event handler (C42) with the error bounds of the states and of the dense output. The implicit classes carry the residual rho of their root finder as rho/h (C79_residual: rho is at most 4.44e-8). C84_five: order five for RungeKutta45. C84_dop853: DOP853, with the bound of C92."
  },
  {
   "property": "C85",
   "status": "proved",
   "theorems": [
    "C85",
    "C85_calls"
   ],
   "note": "Exact arithmetic. The right-hand side is globally Lipschitz, so the solution of the scheme stays bounded up to te and the error estimate of a small enough trial step is below the tolerance. DOP853: see C95."
  },
  {
   "property": "C86",
   "status": "proved",
   "theorems": [
    "C86",
    "C86_ab",
    "C86_implicit",
    "C86_variable",
    "C86_five",
    "C86_default",
    "C86_default_implicit"
   ],
   "note": "Exact arithmetic. Total correctness: combines the order theorems (C33, C67, C71, C79) with termination (C83, C85). np.linalg.solve as in C83."
  },
  {
   "property": "C87",
   "status": "partial",
   "theorems": [
    "C87_start",
    "C87_invalid",
    "C87_valid",
    "C87_partial",
    "C87_refuted"
   ],
   "note": "Refuted: the constructor of DOP853 updates its interpolator while K is uninitialised; 0 * NaN is NaN in binary64, so the right-hand side can be called with NaN and its exception ends the construction. Proved: fixed step classes, RungeKutta23 and RungeKutta45 in any arithmetic, DOP853 over the reals (C87_partial)."
  },
  {
   "property": "C88",
   "status": "partial",
   "theorems": [
    "C88_refuted",
    "C88_first_step"
   ],
   "note": "Refuted: min_factor, max_factor, safety_factor and first_step are not checked. min_factor = 1 repeats a rejected trial for ever; first_step <= 0 never reaches a later time. The positive half (0 < min_factor < 1, 0 < safety_factor < 1 <= max_factor, first_step > 0) is C85."
  },
  {
   "property": "C89",
   "status": "partial",
   "theorems": [
    "C89_refuted",
    "C89_partial"
   ],
   "note": "Refuted for k >= 3 (AdamsMoulton3, BDF3-6): the rows come from the dense output of a step whose size is independent of h, so the error is of order h^2. Proved: it is at most C h^2 (C89_partial), and runs converge with order min(k, 2) (C86_default_implicit)."
  },
  {
   "property": "C90",
   "status": "proved",
   "theorems": [
    "C90"
   ],
   "note": "Arithmetic as in C81. The times asked for end two steps before te so that the steps that bracket the last one stay inside the interval; t_bound is not below te."
  },
  {
   "property": "C91",
   "status": "partial",
   "theorems": [
    "C91_refuted"
   ],
   "note": "Refuted: for every first_step H there is a smooth right-hand side, independent of y, whose stages all vanish in a step of size H, so the step is accepted whatever the tolerances and step() returns a state that is off by H/2. Convergence holds when the steps taken are bounded by H and H goes to zero (C71, C86)."
  },
  {
   "property": "C93",
   "status": "proved",
   "theorems": [
    "C93",
    "C93_variable",
    "C93_five"
   ],
   "note": "Exact arithmetic. Combines C49 (the call returns), C84 (event times) and C86 (the times are reached). visible_zero: the zero is simple on an interval of half-width del >= 2h on which g grows with slope at least mu, and Lg K h^p < mu del/2. The step bound H of the variable step classes is a hypothesis, discharged in C94 by max_factor=1. The returned state is compared with y only when it is not a view of the cache (C48)."
  },
  {
   "property": "C94",
   "status": "proved",
   "theorems": [
    "C94",
    "C94_order",
    "C94_five",
    "C94_solves",
    "C94_solves_five",
    "C94_events"
   ],
   "note": "Exact arithmetic. No hypothesis on the steps taken: the bound of C71, C86 and C93 follows from the option max_factor. The steps of DOP853 complete or raise ZeroDivisionError (C95)."
  },
  {
   "property": "C92",
   "status": "proved",
   "theorems": [
    "C92",
    "C92_run",
    "C92_solves",
    "C92_events"
   ],
   "note": "Exact arithmetic on the decimal coefficients of the source; the second term of the bound is their defect (row sums and weights are off in the last digits, C32_refuted), stated with an explicit constant so that K cannot absorb it. First order in H only: the full order eight was proved in an earlier revision but the check of its 200 order conditions takes too long without the VM. C92_solves and C92_events have no hypothesis on the steps taken (max_factor=1) and include termination."
  },
  {
   "property": "C95",
   "status": "proved",
   "theorems": [
    "C95",
    "C95_calls"
   ],
   "note": "Exact arithmetic and numba's division, which raises (numba_mode = true); under plain numpy the call need not return (C38_numpy_refuted). The exception is real: C38_refuted. After a call that raised, run may also fail in other ways in dense output, so the statement on run is for calls that returned."
  }
 ]
}