{"id": "C01", "title": "Splitting step(n) does not matter", "statement": "Calling step(n=a) and then step(n=b) on a solver gives the same times, states, final solver and error behaviour as one call step(n=a+b).", "quantifier": "every solver, right-hand side, solver state, a, b >= 0 and t_bound", "why_tests_cant": "The split point and the state reached are unbounded; the test suite itself notes (test_solver.py TODO) that it could not settle it.", "anchors": ["nbkode/core.py:Solver.step", "nbkode/core.py:Solver._nsteps"]}
{"id": "C02", "title": "skip is step without output", "statement": "skip(...) leaves the solver in exactly the state step(...) with the same arguments leaves it in, and raises the same exception, if any.", "quantifier": "every solver, state, and combination of n (>= 0) / upto_t / neither / both", "why_tests_cant": "Four argument shapes times unbounded states and step counts.", "anchors": ["nbkode/core.py:Solver.step", "nbkode/core.py:Solver.skip", "nbkode/core.py:Solver._nskip", "nbkode/core.py:Solver._skip", "nbkode/core.py:Solver._steps"]}
{"id": "C03", "title": "Documented argument equivalences of step and skip", "statement": "step() is equivalent to step(n=1); step(n=k) is equivalent to step(n=k, upto_t=inf); step(upto_t=x) is similar to step(n=inf, upto_t=x).", "quantifier": "every solver state, t_bound, k and x", "why_tests_cant": "The equivalences must hold in the boundary situation where t_bound blocks the step, which depends on t, h and t_bound.", "anchors": ["nbkode/core.py:Solver.step docstring lines 219-221", "nbkode/core.py:Solver.skip docstring lines 274-276"]}
{"id": "C04", "title": "The integration never goes beyond t_bound", "statement": "Whatever sequence of step/skip/run calls is made, the current time of a solver that started at or before t_bound stays at or before t_bound.", "quantifier": "every sequence of API calls, every solver (fixed and variable step), every right-hand side", "why_tests_cant": "Needs every call history and every outcome of the step-size controller.", "anchors": ["nbkode/core.py:Solver.__init_subclass__._step", "nbkode/runge_kutta/explicit.py:FSAL._step_builder"]}
{"id": "C05", "title": "A freshly built multistep solver starts inside the allowed interval on the grid t0, t0+h, ...", "statement": "After construction the recorded history of a multistep solver is t0, t0+h, ..., t0+(ORDER-1)h, and its current time does not exceed t_bound.", "quantifier": "every t0, h, t_bound, order and first_stepper_cls choice", "why_tests_cant": "Tests only use t0 = 0 and t_bound = inf with start-up steps.", "anchors": ["nbkode/multistep/core.py:Multistep.__init__"]}
{"id": "C06", "title": "step/skip(upto_t=x) advance maximally without passing x", "statement": "All times produced by step(upto_t=x) are <= x, they are consecutive steps, and the call stops only when one more step from the final state would go beyond x.", "quantifier": "every solver, state, x <= t_bound", "why_tests_cant": "The number of steps is unbounded and depends on rounding and on the controller.", "anchors": ["nbkode/core.py:Solver._steps", "nbkode/core.py:Solver._skip", "nbkode/core.py:Solver._nsteps", "nbkode/core.py:Solver._nskip"]}
{"id": "C07", "title": "Requests in the past are no-ops", "statement": "step/skip with upto_t smaller than the current time return empty arrays / nothing and leave the solver untouched, whatever n is.", "quantifier": "every state, n and upto_t < t", "why_tests_cant": "Quantifies over all states and n.", "anchors": ["nbkode/core.py:Solver.step", "nbkode/core.py:Solver.skip"]}
{"id": "C08", "title": "Out-of-range requests are rejected before anything changes", "statement": "upto_t > t_bound, a requested run time > t_bound, or a requested run time older than the recorded history raise ValueError and leave the solver exactly as it was.", "quantifier": "every state and every request", "why_tests_cant": "All states and all request lists, including unsorted ones.", "anchors": ["nbkode/core.py:Solver._check_time", "nbkode/core.py:Solver.run_events"]}
{"id": "C09", "title": "RuntimeError of step(n)/skip(n) means exactly: fewer than n steps fit below t_bound", "statement": "step(n) raises RuntimeError iff some k < n steps succeed and the (k+1)-th would pass t_bound; the solver is then left after exactly those k steps.", "quantifier": "every state, n and t_bound", "why_tests_cant": "k depends on the whole trajectory.", "anchors": ["nbkode/core.py:Solver.step", "nbkode/core.py:Solver._nsteps", "nbkode/core.py:Solver._nskip"]}
{"id": "C10", "title": "Fixed step solvers walk the grid t0 + k h", "statement": "The k-th time returned by a fixed step solver is t0 + k h (in exact arithmetic; the k-fold rounded sum t0 (+) h (+) h ... in any arithmetic), independent of the right-hand side.", "quantifier": "every fixed step solver, right-hand side, t0, h, k", "why_tests_cant": "Unbounded k and any rhs.", "anchors": ["nbkode/multistep/core.py:ExplicitMultistep._fixed_step_builder", "nbkode/multistep/core.py:ImplicitMultistep._fixed_step_builder", "nbkode/runge_kutta/explicit.py:ERK._fixed_step_builder"]}
{"id": "C11", "title": "Calls terminate for a positive step", "statement": "With a fixed step h > 0, step/skip(upto_t=x) and run(ts) return after the expected finite number of steps: floor((x-t)/h) resp. ceil((max ts - t)/h).", "quantifier": "every t, x, h > 0, right-hand side that returns", "why_tests_cant": "Non-termination cannot be observed by a finite test.", "anchors": ["nbkode/core.py:Solver._steps", "nbkode/core.py:Solver._run_eval"]}
{"id": "C12", "title": "Every accepted step size makes progress", "statement": "Calls with upto_t or run always return: the solver rejects step sizes that cannot advance time.", "quantifier": "every t, h, upto_t including h <= 0 and IEEE binary64 rounding", "why_tests_cant": "A hang is not testable; the failing h depends on t.", "anchors": ["nbkode/core.py:Solver.__init__", "nbkode/core.py:Solver._skip", "nbkode/core.py:Solver._run_eval"]}
{"id": "C13", "title": "run returns the requested times with the interpolated solution", "statement": "run(ts) returns exactly the requested times, in the requested order, and the i-th state is the solver's interpolant at ts[i] evaluated in the step containing ts[i].", "quantifier": "every solver, state, list of requested times", "why_tests_cant": "All lists of times, sorted or not, with repetitions and past times.", "anchors": ["nbkode/core.py:Solver.run_events", "nbkode/core.py:Solver._run_eval"]}
{"id": "C14", "title": "run never silently drops requested times", "statement": "If every requested time is <= t_bound (so run does not raise ValueError), the output has one row per requested time.", "quantifier": "every t_bound, step size and list of requested times", "why_tests_cant": "Depends on where the internal grid falls relative to t_bound.", "anchors": ["nbkode/core.py:Solver.run_events", "nbkode/core.py:Solver._run_eval"]}
{"id": "C15", "title": "run does not depend on the order of the requested times", "statement": "run on a permuted list of times returns the correspondingly permuted times and states and leaves the solver in the same state.", "quantifier": "every permutation of every list of times", "why_tests_cant": "Factorially many permutations; numpy's argsort is not stable.", "anchors": ["nbkode/core.py:Solver.run_events"]}
{"id": "C16", "title": "run can be split and resumed", "statement": "For sorted times l1 ++ l2, run(l1) followed by run(l2) returns the same rows and leaves the same solver as run(l1 ++ l2).", "quantifier": "every solver and every split of every sorted list of times", "why_tests_cant": "Unbounded lists, overshoot of the internal grid differs at each split.", "anchors": ["nbkode/core.py:Solver.run_events", "nbkode/core.py:Solver._run_eval"]}
{"id": "C17", "title": "Sampling does not perturb the trajectory", "statement": "The internal steps taken by run(ts) depend only on max(ts): the recorded history afterwards is the one obtained by stepping until t >= max(ts).", "quantifier": "every solver and every pair of request lists with the same maximum", "why_tests_cant": "All request lists.", "anchors": ["nbkode/core.py:Solver._run_eval"]}
{"id": "C18", "title": "interpolate accepts exactly the recorded history", "statement": "interpolate(t) raises ValueError iff t is outside [oldest recorded time, current time], and never changes the recorded history.", "quantifier": "every state and t", "why_tests_cant": "All states.", "anchors": ["nbkode/core.py:Solver.interpolate"]}
{"id": "C19", "title": "The default interpolant is the cubic Hermite polynomial of the history window", "statement": "In exact arithmetic interpolate agrees with the recorded states at both ends of the history window, has the recorded derivatives there, and is exact for solutions that are cubic polynomials.", "quantifier": "every history window, dimension and evaluation time", "why_tests_cant": "Real-valued identity in t.", "anchors": ["nbkode/core.py:Solver._interpolate"]}
{"id": "C20", "title": "run at a time the solver stepped on returns the step's state", "statement": "Interpolating at the time of any recorded step returns the state recorded for that step.", "quantifier": "every solver, every recorded step", "why_tests_cant": "Depends on history length and data.", "anchors": ["nbkode/core.py:Solver._interpolate", "nbkode/runge_kutta/explicit.py:RkInterpolator.evaluate", "nbkode/runge_kutta/explicit.py:DOP853Interpolator.evaluate"]}
{"id": "C21", "title": "f is always rhs(t, y)", "statement": "After any successful call sequence, for every recorded entry, the stored derivative equals rhs at the stored time and state; in particular solver.f == rhs(solver.t, solver.y).", "quantifier": "every solver and call history", "why_tests_cant": "All call histories and right-hand sides.", "anchors": ["nbkode/multistep/core.py:Multistep._step_builder", "nbkode/runge_kutta/core.py:RungeKutta._step_builder", "nbkode/runge_kutta/explicit.py:FSAL._step_builder", "nbkode/runge_kutta/explicit.py:FSAL._fixed_step_builder"]}
{"id": "C22", "title": "The history holds exactly the last LEN_HISTORY entries, oldest first", "statement": "At every moment the buffer has LEN_HISTORY rows; they are the most recent pushes in order (padded with the initial point), and for h >= 0 times are non-decreasing.", "quantifier": "every sequence of pushes / API calls", "why_tests_cant": "All histories.", "anchors": ["nbkode/buffer.py:AlignedBuffer"]}
{"id": "C23", "title": "A failing right-hand side does not corrupt t, y, f", "statement": "If the user's rhs (or the implicit equation solver) raises during a step, the recorded times, states and derivatives are those after the last completed step.", "quantifier": "every crash point inside every call", "why_tests_cant": "The rhs may fail at any evaluation.", "anchors": ["nbkode/multistep/core.py:Multistep._step_builder", "nbkode/runge_kutta/explicit.py:FSAL._step_builder", "nbkode/core.py:Solver._nsteps"]}
{"id": "C24", "title": "Dense output always describes the last completed step", "statement": "The interpolant used by RungeKutta23/45 and DOP853 is built from the stages of the step that ends at the current time.", "quantifier": "every history of steps, evaluations and failures", "why_tests_cant": "Lazy update depends on the interleaving of step and evaluate calls and on crashes.", "anchors": ["nbkode/runge_kutta/explicit.py:RkInterpolator", "nbkode/runge_kutta/explicit.py:DOP853Interpolator"]}
{"id": "C25", "title": "Returned arrays are snapshots", "statement": "The arrays returned by step, run, run_events (t, y, t_events, y_events) do not change when the solver is advanced later.", "quantifier": "every later call sequence", "why_tests_cant": "Aliasing shows only for particular later calls.", "anchors": ["nbkode/core.py:Solver.step", "nbkode/event_handler.py:Event.evaluate", "nbkode/core.py:Solver._nsteps", "nbkode/core.py:Solver._run_eval"]}
{"id": "C26", "title": "params is partial application", "statement": "A solver built with rhs(t, y, p) and params=p behaves like one built with rhs'(t, y) = rhs(t, y, p).", "quantifier": "every rhs, p and call history", "why_tests_cant": "All histories.", "anchors": ["nbkode/core.py:Solver.__init__"]}
{"id": "C27", "title": "Adams-Bashforth solvers implement the documented formulas and have order = number of steps", "statement": "AdamsBashforthk advances u[n+1] = u[n] + h*(b1 f[n] + b2 f[n-1] + ...) with the documented coefficients, hence is exact for polynomial solutions of degree <= k.", "quantifier": "every history, h, right-hand side", "why_tests_cant": "Universally quantified algebraic identity; the suite uses a 10-15% tolerance.", "anchors": ["nbkode/multistep/adams_bashforth.py", "nbkode/multistep/core.py:ExplicitMultistep"]}
{"id": "C28", "title": "Adams-Moulton solvers have their classical order", "statement": "AdamsMoultonk is exact for polynomial solutions of degree <= k.", "quantifier": "every polynomial, t, h", "why_tests_cant": "Identity over all polynomials.", "anchors": ["nbkode/multistep/adams_moulton.py", "nbkode/multistep/core.py:ImplicitMultistep"]}
{"id": "C29", "title": "BDFk has order k", "statement": "BDFk (k=1..6) is exact for polynomial solutions of degree <= k.", "quantifier": "every polynomial, t, h", "why_tests_cant": "Identity over all polynomials.", "anchors": ["nbkode/multistep/bdf.py", "nbkode/multistep/core.py:ImplicitMultistep"]}
{"id": "C30", "title": "Every solver is consistent", "statement": "Every registered solver integrates y' = c exactly in exact arithmetic, whatever the dimension.", "quantifier": "every solver class, c, y0, t0, h", "why_tests_cant": "All dimensions and values.", "anchors": ["nbkode/multistep", "nbkode/runge_kutta/explicit.py"]}
{"id": "C31", "title": "Explicit Runge-Kutta solvers have their classical order", "statement": "Runge2, Runge3, Heun3, RungeKutta4, RungeKutta3_8 satisfy every Butcher order condition up to their order, are exact for y' = polynomial of degree < order and reproduce the Taylor polynomial of exp on y' = lambda y.", "quantifier": "all rooted trees of the given order, all polynomials, all lambda", "why_tests_cant": "Infinite families.", "anchors": ["nbkode/runge_kutta/explicit.py:ERK"]}
{"id": "C32", "title": "The adaptive pairs have their stated orders and error weights", "statement": "RungeKutta23 is order 3 with an order 2 embedded formula, RungeKutta45 order 5 with order 4 embedded, DOP853 order 8; error weights are the difference of the two formulas.", "quantifier": "all rooted trees up to the stated order", "why_tests_cant": "Hundreds of algebraic identities with 30 digit coefficients.", "anchors": ["nbkode/runge_kutta/explicit.py:RungeKutta23", "nbkode/runge_kutta/explicit.py:RungeKutta45", "nbkode/runge_kutta/explicit.py:DOP853", "nbkode/runge_kutta/dop853_coefficients.py"]}
{"id": "C33", "title": "Numerical solutions converge to the true solution as h -> 0", "statement": "For a Lipschitz right-hand side and a C2 solution, the global error of the explicit fixed step solvers at any fixed time tends to 0 linearly (at least) in h.", "quantifier": "every Lipschitz rhs, every h small enough, every step count", "why_tests_cant": "A limit statement.", "anchors": ["nbkode/runge_kutta/explicit.py:ERK", "nbkode/multistep/core.py:ExplicitMultistep"]}
{"id": "C34", "title": "An implicit step returns only if its equation is solved to tolerance", "statement": "When an implicit multistep step on a system of dimension > 1 succeeds, the residual of the implicit equation is at most the tolerance; otherwise RuntimeError is raised and nothing is recorded.", "quantifier": "every rhs, history, h", "why_tests_cant": "All functions.", "anchors": ["nbkode/nbcompat/zeros.py:newton_hd", "nbkode/multistep/core.py:ImplicitMultistep"]}
{"id": "C35", "title": "Implicit steps are exact for scalar affine problems", "statement": "For y' = a(t) y + b(t) in one dimension, one implicit step of any Adams-Moulton/BDF solver returns the exact solution of its implicit equation when 1 - h Bn a(t) is not 0.", "quantifier": "every a, b, h, history", "why_tests_cant": "All real data.", "anchors": ["nbkode/nbcompat/zeros.py:j_newton", "nbkode/multistep/core.py:ImplicitMultistep"]}
{"id": "C36", "title": "Step-size controller: accept iff scaled error < 1 and bounded change of h", "statement": "A variable step is recorded iff its scaled error is < 1 (or 0); each trial multiplies h by a factor in [min_factor, max_factor]; a rejected trial never increases h when safety_factor <= 1.", "quantifier": "every error sequence and options", "why_tests_cant": "All error histories.", "anchors": ["nbkode/runge_kutta/core.py:AdaptiveRungeKutta._step_update", "nbkode/runge_kutta/explicit.py:FSAL._step_builder"]}
{"id": "C37", "title": "max_step and min_step are respected", "statement": "A variable step solver built with max_step=m never takes a step longer than m (and none shorter than min_step).", "quantifier": "every rhs, options", "why_tests_cant": "All trajectories.", "anchors": ["nbkode/core.py:VariableStepOptions", "nbkode/core.py:VariableStep", "nbkode/runge_kutta/core.py:AdaptiveRungeKutta._step_update"]}
{"id": "C38", "title": "DOP853 accepts steps with zero error", "statement": "When both error estimates vanish (e.g. y' = 0) the step is accepted, as in SciPy.", "quantifier": "every rhs with vanishing estimates", "why_tests_cant": "Needs exact zero estimates; numba and numpy differ.", "anchors": ["nbkode/runge_kutta/explicit.py:DOP853._step_builder"]}
{"id": "C39", "title": "Variable step integration stops at t_bound", "statement": "As documented, in variable step methods the integration stops at t_bound.", "quantifier": "every trajectory", "why_tests_cant": "All trajectories.", "anchors": ["nbkode/core.py:Solver docstring lines 56-57", "nbkode/core.py:Solver.__init_subclass__._step"]}
{"id": "C40", "title": "Dense output of RungeKutta23/45/DOP853 is continuously differentiable across steps", "statement": "The interpolant equals the recorded states at both ends of a step and its slope there equals the recorded derivatives.", "quantifier": "every stage data, h, dimension", "why_tests_cant": "Polynomial identities over all data.", "anchors": ["nbkode/runge_kutta/explicit.py:RkInterpolator", "nbkode/runge_kutta/explicit.py:DOP853Interpolator"]}
{"id": "C41", "title": "Recorded event times are strictly increasing and lie in the integrated interval", "statement": "For each event the reported times are strictly increasing and each lies in a step taken during the call.", "quantifier": "every event function, trajectory", "why_tests_cant": "All functions.", "anchors": ["nbkode/event_handler.py:Event.evaluate"]}
{"id": "C42", "title": "Direction is honoured", "statement": "An event with positive (negative, zero) direction is reported for a step iff the event function goes from <= 0 to >= 0 (>= 0 to <= 0, either) over that step.", "quantifier": "every event function and step", "why_tests_cant": "All sign patterns and histories.", "anchors": ["nbkode/event_handler.py:Event.evaluate", "nbkode/event_handler.py:build_handler"]}
{"id": "C43", "title": "Event times are accurate", "statement": "For a continuous event function along the interpolant, the reported time is within (step length)/2^50 of a true zero or the event value there is at most 1.48e-8.", "quantifier": "every continuous function", "why_tests_cant": "All continuous functions.", "anchors": ["nbkode/nbcompat/zeros.py:bisect", "nbkode/event_handler.py:Event.evaluate"]}
{"id": "C44", "title": "A terminal event ends the run at that event", "statement": "The first step in which a terminal event triggers is the last step taken; the last returned point is the event time and state.", "quantifier": "every set of events, trajectory and request list", "why_tests_cant": "All histories.", "anchors": ["nbkode/core.py:Solver._run_eval_events", "nbkode/event_handler.py:EventHandler.evaluate"]}
{"id": "C45", "title": "With several terminal events in one step the earliest one wins", "statement": "If several terminal events trigger in the same step, the run ends at the earliest of their times.", "quantifier": "every set of events", "why_tests_cant": "Needs particular coincidences.", "anchors": ["nbkode/event_handler.py:EventHandler.evaluate"]}
{"id": "C46", "title": "Non-terminal events do not perturb the solution", "statement": "run_events with only non-terminal events returns the same t, y and leaves the same t, y, f history as run.", "quantifier": "every solver, events, requests", "why_tests_cant": "All functions.", "anchors": ["nbkode/core.py:Solver._run_eval_events", "nbkode/core.py:Solver._run_eval"]}
{"id": "C47", "title": "run_events accepts request lists that include the current time", "statement": "run_events(ts, events) with requested times at or before the current time returns those points as run does.", "quantifier": "every request list with a past or current time", "why_tests_cant": "Only some request lists expose it.", "anchors": ["nbkode/core.py:Solver.run_events line 441"]}
{"id": "C48", "title": "No event is reported after the terminal event", "statement": "When a terminal event ends the run, no other event is reported at a later time.", "quantifier": "every set of events", "why_tests_cant": "Needs coincidences within one step.", "anchors": ["nbkode/event_handler.py:EventHandler.evaluate"]}
{"id": "C49", "title": "run_events works for every solver whenever the event function changes sign", "statement": "If the event function has opposite signs at the two ends of a step, run_events locates it instead of raising.", "quantifier": "every solver, event, trajectory", "why_tests_cant": "Depends on interpolant vs step states.", "anchors": ["nbkode/event_handler.py:Event.evaluate", "nbkode/core.py:Solver._interpolate", "nbkode/nbcompat/zeros.py:bisect"]}
{"id": "C50", "title": "Unsorted requests with early termination", "statement": "run_events/run with an unsorted list whose integration stops early (terminal event or t_bound) returns the points reached.", "quantifier": "every unsorted list", "why_tests_cant": "Combination of ordering and stopping.", "anchors": ["nbkode/core.py:Solver.run_events lines 443-447"]}
{"id": "C51", "title": "CaseInsensitiveDict is a map up to case", "statement": "Any sequence of set/delete/update/pop/clear/setdefault behaves like a map keyed by the lower-cased key that remembers the spelling of the last set and first-insertion order.", "quantifier": "every operation sequence", "why_tests_cant": "All histories.", "anchors": ["nbkode/util.py:CaseInsensitiveDict"]}
{"id": "C52", "title": "Equality and copy of CaseInsensitiveDict", "statement": "copy() compares equal to the original and is independent of it; equality ignores case and order and is an equivalence relation.", "quantifier": "all dictionaries", "why_tests_cant": "All dictionaries.", "anchors": ["nbkode/util.py:CaseInsensitiveDict.__eq__", "nbkode/util.py:CaseInsensitiveDict.copy"]}
{"id": "C53", "title": "get_solver finds every registered name and alias in any case", "statement": "get_solver(s) returns class c iff s equals, ignoring case, the name or an alias of c; otherwise ValueError.", "quantifier": "every registration history and query", "why_tests_cant": "All histories.", "anchors": ["nbkode/core.py:get_solver", "nbkode/core.py:Solver.__init_subclass__"]}
{"id": "C54", "title": "A rejected solver definition leaves the registry unchanged", "statement": "If defining a solver class raises (duplicate name or alias, bad LEN_HISTORY), get_solver and get_solvers answer as before.", "quantifier": "every registry state and class", "why_tests_cant": "Crash point inside the registration loop.", "anchors": ["nbkode/core.py:Solver.__init_subclass__ lines 161-170"]}
{"id": "C55", "title": "get_solvers filters correctly", "statement": "get_solvers(*groups, **filters) returns exactly the registered classes of those groups that satisfy the filters, each group in definition order; without groups each class once; KeyError iff a group is unknown.", "quantifier": "every registration history, group list, filter combination", "why_tests_cant": "All histories and filter combinations.", "anchors": ["nbkode/core.py:get_solvers", "nbkode/core.py:check"]}
{"id": "C56", "title": "implicit=True selects the implicit methods", "statement": "get_solvers(implicit=True) returns exactly the methods whose step solves an implicit equation.", "quantifier": "all registered solvers", "why_tests_cant": "The shipped test compares the flag with itself.", "anchors": ["nbkode/multistep/core.py:Multistep.IMPLICIT", "nbkode/core.py:check"]}
{"id": "C57", "title": "implicit=True and implicit=False partition the solvers (same for fixed_step, runge_kutta, multistep)", "statement": "For each filter the two boolean values split the unfiltered result into disjoint parts.", "quantifier": "every registration history and group list", "why_tests_cant": "All histories.", "anchors": ["nbkode/core.py:get_solvers", "nbkode/core.py:check"]}
{"id": "C58", "title": "Module attribute access, dir and listing agree with the registry", "statement": "nbkode.<name> is get_solver(<name>), warning iff the spelling is not the class name, AttributeError iff unknown; dir lists every current solver.", "quantifier": "every registration history and name", "why_tests_cant": "Caches make the answer depend on when dir was first called.", "anchors": ["nbkode/__init__.py:__getattr__", "nbkode/__init__.py:__dir__", "nbkode/core.py:list_solvers"]}
{"id": "C59", "title": "bisect keeps a sign change and halves the interval", "statement": "bisect(fun, l, r) raises ValueError iff not l < r or there is no sign change; otherwise it returns a point of [l, r], after k iterations the bracket has width (r-l)/2^k and still contains a sign change.", "quantifier": "every function, l, r, tol, maxiter", "why_tests_cant": "All functions.", "anchors": ["nbkode/nbcompat/zeros.py:bisect"]}
{"id": "C60", "title": "newton (secant) contract", "statement": "The secant branch returns normally only if two consecutive iterates are within tol + rtol*|p| or coincide, uses at most maxiter+2 evaluations, and solves affine equations exactly.", "quantifier": "every function, x0, x1", "why_tests_cant": "All functions.", "anchors": ["nbkode/nbcompat/zeros.py:_newton", "nbkode/nbcompat/zeros.py:j_newton", "nbkode/nbcompat/zeros.py:newton"]}
{"id": "C61", "title": "newton (Newton/Halley) contract", "statement": "With fprime, a normal return is an exact zero or has a last step within tolerance, a zero derivative raises, evaluation counts are (1+d) per iteration; affine equations are solved exactly.", "quantifier": "every function and derivative functions", "why_tests_cant": "All functions.", "anchors": ["nbkode/nbcompat/zeros.py:_newton", "nbkode/nbcompat/zeros.py:newton"]}
{"id": "C62", "title": "newton_hd contract", "statement": "newton_hd returns y only if the 2-norm of func(y) is at most atol; it raises RuntimeError after maxiter+1 iterations; for affine func it stops after one iteration.", "quantifier": "every function", "why_tests_cant": "All functions.", "anchors": ["nbkode/nbcompat/zeros.py:newton_hd", "nbkode/nbcompat/zeros.py:newton_hd_impl", "nbkode/nbcompat/zeros.py:jacobian"]}
{"id": "C63", "title": "bisect accepts every sign change in floating point", "statement": "If fun(l) and fun(r) are finite floats of opposite sign, bisect does not raise.", "quantifier": "all binary64 values", "why_tests_cant": "Fails only for underflowing products.", "anchors": ["nbkode/nbcompat/zeros.py:bisect line 518"]}
{"id": "C64", "title": "isclose and clip", "statement": "isclose(a, b) iff |a-b| <= atol + rtol |b|; clip(x, lo, hi) lies in [lo, hi] for lo <= hi, is idempotent and fixes points of the interval.", "quantifier": "all values", "why_tests_cant": "All values.", "anchors": ["nbkode/nbcompat/common.py"]}
{"id": "C65", "title": "NBKODE_NONUMBA decorators are transparent", "statement": "Without numba, every decorator form used (njit, njit(), njit(**opts), jitclass(spec)) returns the decorated object unchanged.", "quantifier": "every callable and decorator argument list", "why_tests_cant": "All argument shapes.", "anchors": ["nbkode/nbcompat/numbasub.py:optional_arg_decorator"]}
{"id": "C66", "title": "Explicit solvers conserve linear first integrals", "statement": "If w . rhs(t, y) = 0 wherever w . y = w . y0, then every stored state and every value returned by run satisfies w . y = w . y0, for every explicit class, with any explicit first stepper and after any calls.", "quantifier": "every right-hand side, linear form, explicit class, step, call sequence", "why_tests_cant": "All systems, steps and histories.", "anchors": ["nbkode/multistep/core.py", "nbkode/runge_kutta/core.py", "nbkode/core.py:run", "nbkode/core.py:interpolate"]}
{"id": "C67", "title": "Order of convergence of the fixed step Runge-Kutta classes", "statement": "For a Lipschitz right-hand side that is smooth along a C^5 solution y, there is K such that for every step h in (0, 1] and every call sequence every state the solver reaches up to te, and every row returned by run, is within K h^p of y: p = 2 for Runge2, 3 for Runge3 and Heun3, 4 for RungeKutta4 and RungeKutta3_8.", "quantifier": "every right-hand side of any dimension, solution, interval, step, call sequence", "why_tests_cant": "All problems; the limit h -> 0.", "anchors": ["nbkode/runge_kutta/explicit.py", "nbkode/runge_kutta/core.py", "nbkode/core.py:run", "nbkode/core.py:interpolate"]}
{"id": "C68", "title": "The origin of time does not matter", "statement": "Two instances of the same class built for y' = f(t, y) from t0 and for y' = f(t - c, y) from t0 + c (same y0, step, options, corresponding first stepper: none or a fixed step one), and given the same calls with every time (upto_t, requested times, t_bound, event functions) moved by c, have the same history with times moved by c, and step, skip, run, run_events and interpolate answer alike: same values or the same exception. The constructors raise alike.", "quantifier": "every class, right-hand side, c, initial state, call sequence", "why_tests_cant": "All right-hand sides, offsets and call sequences; two executions compared.", "anchors": ["nbkode/core.py:Solver", "nbkode/core.py:run_events", "nbkode/runge_kutta/explicit.py", "nbkode/multistep/core.py"]}
{"id": "C69", "title": "Explicit fixed step classes commute with linear maps", "statement": "If A f(t, y) = f'(t, A y) for a matrix A (change of units or of coordinates, symmetry, projection to a closed subsystem), then an explicit fixed step instance for f' started at A y0 and given the same calls holds A times the history of the instance for f, and every further call answers with A times the values or with the same exception.", "quantifier": "every matrix of any shape, right-hand side, explicit fixed step class, first stepper of these classes or none, call sequence", "why_tests_cant": "All right-hand sides and maps; two executions compared.", "anchors": ["nbkode/core.py:Solver", "nbkode/runge_kutta/core.py", "nbkode/multistep/core.py", "nbkode/multistep/adams_bashforth.py"]}
{"id": "C70", "title": "Explicit fixed step classes solve independent components independently", "statement": "If the components idx of f(t, y) depend only on the components idx of y, then solving the subsystem alone with an explicit fixed step class gives, call by call, exactly (also in binary64) the components idx of what solving the whole system gives; permuting the components permutes the results.", "quantifier": "every scalar type, index list, right-hand side, explicit fixed step class, call sequence", "why_tests_cant": "All right-hand sides and index lists; two executions compared.", "anchors": ["nbkode/core.py:Solver", "nbkode/runge_kutta/core.py", "nbkode/multistep/core.py"]}
{"id": "C71", "title": "Order of convergence of the variable step classes in the largest step", "statement": "For a Lipschitz right-hand side that is smooth along a C^5 solution y, there is K such that, whatever the options, step selector, first step, t_bound and call sequence, if no step that ends before te is longer than H <= 1 then every state reached up to te, and every row returned by run, is within K H^p of y: p = 3 for RungeKutta23, p = 4 for RungeKutta45 (dense output included), and p = 5 for RungeKutta45 when y is C^6 and the Jacobian along y is C^3.", "quantifier": "every right-hand side of any dimension, solution, interval, options, call sequence", "why_tests_cant": "All problems and step sequences; the limit H -> 0.", "anchors": ["nbkode/runge_kutta/explicit.py", "nbkode/runge_kutta/core.py", "nbkode/core.py:run", "nbkode/core.py:interpolate"]}
{"id": "C72", "title": "Linear test equation and stability", "statement": "On y' = lam y every step multiplies the state by R(h lam): 1+z (ForwardEuler, AB1), 1+z+z^2/2 (Runge2), +z^3/6 (Heun3, RungeKutta23), +z^3/6+z^4/12 (Runge3), +z^4/24 (RungeKutta4, RungeKutta3_8), +z^5/120+z^6/600 (RungeKutta45), 1/(1-z) (BackwardEuler, AM1, BDF1; scalar), (1+z/2)/(1-z/2) (AM2; scalar); so after any calls a fixed step solver holds R(h lam)^k y0. The implicit ones never amplify when h lam <= 0; the explicit ones do not for h lam in [-2, 0] (Heun3 2.51, RungeKutta4 and 3_8 2.78) and grow without bound when |R(h lam)| > 1.", "quantifier": "every lam, step, dimension (explicit classes), call sequence", "why_tests_cant": "All step sizes and numbers of steps.", "anchors": ["nbkode/runge_kutta/explicit.py", "nbkode/multistep/core.py", "nbkode/euler.py"]}
{"id": "C73", "title": "Order of convergence of the multistep classes", "statement": "An Adams-Bashforth, Adams-Moulton or BDF class of order k, started exactly, keeps the order k over an interval: polynomial solutions of degree at most k are reproduced after any number of steps and the error on a smooth problem is at most K h^k.", "quantifier": "every multistep class, step, number of steps, call sequence", "why_tests_cant": "The limit h -> 0 and any number of steps.", "anchors": ["nbkode/multistep/adams_bashforth.py", "nbkode/multistep/adams_moulton.py", "nbkode/multistep/bdf.py"]}
{"id": "C74", "title": "Fully implicit Runge-Kutta steps (Radau)", "statement": "The step functions of RadauIA3, RadauIIA3 (order 3) and RadauIIA (order 5), given a root finder that returns roots, end at t + h with y + h sum b_i k_i where k_i = rhs(t + c_i h, y + h sum a_ij k_j) for all stages; the tableaux satisfy all order conditions up to their order and not one more; polynomial solutions of y' = f(t) up to that degree are exact; on y' = lam y the step multiplies by the Pade approximation R(h lam), |R| <= 1 for h lam <= 0 and R -> 0 at minus infinity.", "quantifier": "every right-hand side of any dimension, state, step, start value and root finder", "why_tests_cant": "All right-hand sides; all rooted trees with at most 5 nodes; all step sizes.", "anchors": ["nbkode/runge_kutta/implicit.py"]}
{"id": "C75", "title": "Order of Fehlberg45", "statement": "As documented, the step of Fehlberg45 (weights B) has order 5 and the embedded formula (weights B2) order 4.", "quantifier": "all rooted trees up to order 5", "why_tests_cant": "Order conditions for all right-hand sides.", "anchors": ["nbkode/runge_kutta/explicit.py:Fehlberg45"]}
{"id": "C76", "title": "jacobian returns the Jacobian matrix", "statement": "For a linear right-hand side f(t, y) = M y, jacobian(rhs, t, y) returns (0, M), so that np.linalg.solve(eye/h/gamma - J, b) solves the linearised stage equation.", "quantifier": "every dimension, matrix, state, time and increment", "why_tests_cant": "All matrices and dimensions.", "anchors": ["nbkode/runge_kutta/linearly_implicit.py:jacobian"]}
{"id": "C77", "title": "ROS3P is a third order method", "statement": "The step of ROS3P (and the equal step of the LIRK form) has an error O(h^4) on linear systems and on y' = f(t) with cubic solutions, and does not amplify y' = lam y for lam <= 0; its coefficients satisfy the Rosenbrock order conditions up to order 3, those of the embedded formula of AdaptiveROS3P the order it states.", "quantifier": "every linear problem, step, state", "why_tests_cant": "The limit h -> 0; all rooted trees up to order 3.", "anchors": ["nbkode/runge_kutta/linearly_implicit.py:ROS3P"]}
{"id": "C78", "title": "Class properties of Runge-Kutta tableaux", "statement": "consistent is True exactly when sum(B) is within numpy's tolerance of 1, implicit is False exactly for strictly lower triangular A, diagonally_implicit and singly_diagonally_implicit hold exactly for matrices without entries above the diagonal / with a constant diagonal; every shipped explicit class is consistent and not implicit, the Radau classes are consistent, implicit and not diagonally implicit.", "quantifier": "every tableau", "why_tests_cant": "All matrices.", "anchors": ["nbkode/runge_kutta/core.py", "nbkode/runge_kutta/implicit.py", "nbkode/runge_kutta/diagonally_implicit.py"]}
{"id": "C79", "title": "Order of convergence of the implicit multistep classes", "statement": "AdamsMoulton1-3 and BDF1-6 (order k) with a constant step h approximate a k+1 times differentiable solution of a Lipschitz problem of any dimension with an error of at most K (h^k + d + rho/h) over a finite interval, where d is the error of the starting values (h^p for a Runge-Kutta class of order p as first stepper), rho is what the root finder leaves at most of the equation of a step, and K depends on neither; rho is never more than 4.44e-8, and it is zero for scalar affine problems.", "quantifier": "every right-hand side, solution, step, call sequence", "why_tests_cant": "The limit h -> 0, nonlinear right-hand sides, any number of steps.", "anchors": ["nbkode/multistep/core.py", "nbkode/multistep/adams_moulton.py", "nbkode/multistep/bdf.py", "nbkode/nbcompat/zeros.py"]}
{"id": "C80", "title": "The error of a failed look-up lists the available solvers", "statement": "get_solver(name) with an unknown name raises ValueError and the message lists, sorted, exactly the names and aliases of the solvers defined at that moment.", "quantifier": "every history of class definitions and look-ups", "why_tests_cant": "All histories; the names are kept in a module global after the first failure.", "anchors": ["nbkode/core.py:get_solver", "nbkode/core.py:list_solvers"]}
{"id": "C81", "title": "Rounding errors of the fixed step Runge-Kutta classes", "statement": "In IEEE binary64 (and in any binary format with p bits and enough range) Runge2, Runge3, Heun3, RungeKutta4 and RungeKutta3_8 with step h keep every state finite and within K (h^p + eps/h) of the solution at the reported (rounded) time, where eps bounds the unit roundoff and the error of the evaluated right-hand side and K depends only on the problem and the class; the time is accumulated in floating point too.", "quantifier": "every right-hand side, solution, floating point format, step, call sequence", "why_tests_cant": "Rounding errors of unboundedly many steps, all formats and all right-hand sides.", "anchors": ["nbkode/runge_kutta/core.py", "nbkode/runge_kutta/explicit.py", "nbkode/core.py:step"]}
{"id": "C82", "title": "Adaptive Runge-Kutta classes that are not FSAL can take steps", "statement": "A concrete subclass of AdaptiveRungeKutta that inherits its step (for instance of Fehlberg45) takes steps: step() makes trials until the scaled difference of the two embedded results is below one, records the accepted one and keeps within t_bound.", "quantifier": "every tableau, right-hand side, option and state", "why_tests_cant": "All tableaux and right-hand sides; no concrete class of the package uses this code path.", "anchors": ["nbkode/runge_kutta/core.py:AdaptiveRungeKutta", "nbkode/core.py:Solver.__init_subclass__"]}
{"id": "C83", "title": "The implicit multistep steps complete", "statement": "For a Lipschitz right-hand side (constant L) that returns for every argument of dimension n, a step of AdamsMoulton1-5 and BDF1-6 with |h| L |Bn| (3 n + 2) <= 1 from any reachable state completes: the root finder, scalar or vector, converges within its 50 iterations (residual at the old state and state below 1e6/n), does not raise, and lands within 1e-7 of every exact solution of the implicit equation. Along a smooth solution N calls of step() with a small step all return, at t0 + N h, within the error of C79.", "quantifier": "every right-hand side of any dimension, class, reachable state, number of steps", "why_tests_cant": "All right-hand sides and states; convergence of the iteration.", "anchors": ["nbkode/multistep/core.py", "nbkode/nbcompat/zeros.py", "nbkode/multistep/adams_moulton.py", "nbkode/multistep/bdf.py"]}
{"id": "C84", "title": "The reported events are the events of the solution", "statement": "Let the right-hand side be Lipschitz and the solution y smooth, and let an event function g(t, y) be Lipschitz in y with constant Lg. Then for the fixed step Runge-Kutta classes (any calls before), RungeKutta23, RungeKutta45 and DOP853 (largest step H) and AdamsMoulton1-3 / BDF1-6 started by a Runge-Kutta class, with eps the error of the class (C67, C71, C92, C79): wherever run_events reports the event, g along the true solution is at most Lg eps + 1.48e-8 (+ Lt h/2^50), and an array it returns that is not a view is within eps of the solution; near a simple zero z of g(t, y(t)) with slope at least mu every reported time is within (Lg eps + 1.48e-8)/mu + h/2^50 of z; if the crossing direction is the one asked for and h is small, the zero is reported; a terminal event stops the run no later than shortly after it.", "quantifier": "every right-hand side, solution, event function, simple zero, step size, previous calls", "why_tests_cant": "Asymptotic statement over all equations and event functions.", "anchors": ["nbkode/event_handler.py", "nbkode/nbcompat/zeros.py", "nbkode/core.py", "nbkode/runge_kutta/explicit.py", "nbkode/multistep/core.py"]}
{"id": "C85", "title": "RungeKutta23 and RungeKutta45 make progress: no step stalls and every call returns", "statement": "Let the right-hand side be Lipschitz and defined for every state and bounded at y = 0 over the interval, atol > 0, rtol >= 0, 0 < min_factor < 1, 0 < safety_factor < 1 <= max_factor. For a problem, initial state, first step size and final time te there are hmin > 0 and a number of trials N such that after any calls, while the time is at most te, the step size is at least hmin and, unless t_bound is in the way, the next step is accepted within N trials and advances the time by at least hmin. So step(upto_t), skip(upto_t) and run(times) up to te return, run with the asked times unless t_bound stops it.", "quantifier": "every Lipschitz right-hand side, initial state, options, first step size, final time, previous calls", "why_tests_cant": "A lower bound for all step sizes the controller can ever select, over all equations.", "anchors": ["nbkode/runge_kutta/core.py", "nbkode/core.py"]}
{"id": "C86", "title": "Constructing a solver and calling run solves the initial value problem", "statement": "Let y solve y' = rhs(t, y) on [t0, te] with a Lipschitz right-hand side that is defined for every state (smooth along y as far as the order needs). Then constructing Runge2, Runge3, Heun3, RungeKutta4, RungeKutta3_8 or AdamsBashforth1-5 with (t0, y(t0), h), or AdamsMoulton1-3 or BDF1-6 with a Runge-Kutta first stepper and h small enough, returns an instance. After any calls that leave the time at most te, run(times) with sorted times between the oldest recorded row and te - h returns exactly one row for each time, in order, and the rows are within K h^p of y (K h for Adams-Bashforth, K (h^min(k,p) + tol/h) for the implicit classes). With initial time 0 and h small enough the same holds with the default first stepper, with K h for Adams-Bashforth and K (h^min(k,2) + tol/h) for the implicit classes. RungeKutta23 and RungeKutta45 with t_bound = te also return from run, with rows within K H^p where H bounds the steps taken; rows are missing only if the next step would pass t_bound.", "quantifier": "every Lipschitz right-hand side, solution, class of the list, step size, uninitialised memory content, previous calls, list of times", "why_tests_cant": "The whole path from constructor to rows, total correctness: it returns, with the right times and close values.", "anchors": ["nbkode/core.py", "nbkode/multistep/core.py", "nbkode/runge_kutta/core.py"]}
{"id": "C87", "title": "Constructors check their options and start at the initial condition", "statement": "A constructor that gets valid options (max_step not <= 0, atol not < 0) and a right-hand side that returns at (t0, y0) returns an instance with t = t0, y = y0, f = rhs(t0, y0) and step size h (1 if not given), first_step, or what select_initial_step returns. With invalid options a variable step class raises ValueError. An exception of the right-hand side at (t0, y0) is passed on. No other value of the right-hand side matters when first_step is given.", "quantifier": "every class, right-hand side, initial condition, option set, content of uninitialised memory", "why_tests_cant": "Uninitialised memory is zero or harmless in almost every test run.", "anchors": ["nbkode/core.py", "nbkode/runge_kutta/explicit.py"]}
{"id": "C88", "title": "Options that the constructor accepts let the integration make progress", "statement": "If the constructor of a variable step class returns, step() completes (for a Lipschitz right-hand side that is defined everywhere) and step(upto_t) and skip(upto_t) return.", "quantifier": "every right-hand side, option set and first step size accepted by the constructor", "why_tests_cant": "Non-termination cannot be observed by a test, and the options are rarely varied.", "anchors": ["nbkode/core.py", "nbkode/runge_kutta/core.py"]}
{"id": "C89", "title": "The default first stepper keeps the order of the multistep class", "statement": "Let a multistep class of order k be constructed with initial time 0, step size h and the default first stepper (RungeKutta45 with default options, whose step size does not depend on h). Then the recorded rows, and so the state it starts from, are within K h^k of the solution for small h.", "quantifier": "every smooth Lipschitz right-hand side, class, step size and first step size of the first stepper", "why_tests_cant": "An asymptotic statement; the default tolerances of the first stepper hide it on ordinary test problems.", "anchors": ["nbkode/multistep/core.py", "nbkode/runge_kutta/core.py"]}
{"id": "C90", "title": "Solving an initial value problem with rounding errors", "statement": "In IEEE binary64 (and in any binary format with enough range) Runge2, Runge3, Heun3, RungeKutta4 and RungeKutta3_8: the constructor returns; after any sequence of calls, run(t) with sorted finite times from the oldest recorded time up to two steps before the end of the interval of the solution returns exactly one row per time, each finite and within K (h^p + eps/h) of the solution at that time, where eps bounds the unit roundoff and the error of the evaluated right-hand side, K (h + eps/h) <= 1 and K depends only on the problem and the class.", "quantifier": "every right-hand side, solution, floating point format, step, call sequence and list of times", "why_tests_cant": "Rounding errors of unboundedly many steps, of the accumulated time and of the interpolation (a quotient of two small differences), for all formats and right-hand sides.", "anchors": ["nbkode/core.py:Solver.run", "nbkode/core.py:Solver.interpolate", "nbkode/runge_kutta/explicit.py"]}
{"id": "C91", "title": "Tightening the tolerances makes the variable step classes converge", "statement": "Let RungeKutta23 or RungeKutta45 be constructed with a given first_step for a smooth Lipschitz problem. As atol and rtol go to zero the states returned by step() tend to the solution.", "quantifier": "every smooth Lipschitz right-hand side, first step and tolerances", "why_tests_cant": "Tests use problems whose stages do not vanish together; the estimate is only a sample of the right-hand side at a few nodes.", "anchors": ["nbkode/runge_kutta/core.py:_step_update", "nbkode/runge_kutta/explicit.py"]}
{"id": "C93", "title": "run_events finds the zeros of event functions", "statement": "Let the right-hand side be Lipschitz and defined everywhere, the solution y smooth and the event functions defined everywhere and Lipschitz in y. For Runge2, Runge3, Heun3, RungeKutta4 and RungeKutta3_8 the constructor with step h returns, and after any calls run_events with sorted future times (up to te - h) returns; if g(t, y(t)) has a simple zero z, in the direction asked for, between the current time and the last of the times and not terminal, then the call returns one row per time and reports the event at a time within (Lg K h^p + 1.48e-8)/mu + h/2^50 of z, with a state within K h^p of y. If the event is terminal and z is its first zero, the last row is at a time within (Lg K h^p + 1.48e-8 + Lt h/2^50)/mu of z. For RungeKutta23 (order 3) and RungeKutta45 (order 4, 5 with more smoothness) with steps at most H the same holds unless one more step would pass t_bound before the last time is reached.", "quantifier": "every right-hand side, solution, event function, class, step size, call history and list of times", "why_tests_cant": "All problems; involves termination of the loops, the order of the class and the interplay of interpolation, bisection and tolerance.", "anchors": ["nbkode/core.py:Solver.run_events", "nbkode/event_handler.py", "nbkode/core.py:Solver._run_eval"]}
{"id": "C94", "title": "With max_factor=1 first_step bounds all steps and gives the order of convergence", "statement": "For RungeKutta23, RungeKutta45 and DOP853 with max_factor <= 1 (and 0 <= min_factor <= 1, safety_factor <= 1) the step size never grows: after any calls, returning or raising, it is at most the first one, and every step advances the time by at most the first step. Hence the states of RungeKutta23 and RungeKutta45 are within K h^3 and K h^5 of the solution, h the first step, K independent of the tolerances. With max_factor=1 and t_bound=te, run of RungeKutta23 and RungeKutta45 for times up to te - h returns one row for each time within K h^p of the solution, and run_events finds the zeros of event functions and stops at terminal ones.", "quantifier": "every right-hand side, solution, tolerances, first step, call sequence", "why_tests_cant": "All step sequences and problems; the growth of the step is decided by the error estimates.", "anchors": ["nbkode/runge_kutta/core.py:AdaptiveRungeKutta._step_update", "nbkode/core.py:VariableStepOptions", "nbkode/core.py:Solver.run", "nbkode/core.py:Solver.run_events"]}
{"id": "C92", "title": "The states and rows of DOP853 converge to the solution", "statement": "Let the right-hand side be Lipschitz (constant L), y a C^2 solution on [t0, te] and S a bound of the right-hand side along y. There is K such that, whatever the options, step selector, first step, t_bound and call sequence: if no step that ends before te is longer than H <= 1/(200 L), H <= 1, then every state of DOP853 reached up to te, and every row returned by run (dense output included), is within K H + S (te - t0) exp(26 L (te - t0)) / 10^29 of y. With max_factor=1, first_step=h and t_bound=te under numba, run for sorted times up to te - h returns one row per time within that bound (H = h), or raises ZeroDivisionError; and run_events reports every visible simple zero of an event function with the accuracy of C84 and stops at a terminal one, or raises ZeroDivisionError.", "quantifier": "every Lipschitz right-hand side of any dimension, solution, interval, options, call sequence", "why_tests_cant": "All problems and step sequences; tableau with 16 stages and 30 digit coefficients, whose row sums are off in the last digits.", "anchors": ["nbkode/runge_kutta/explicit.py:DOP853", "nbkode/runge_kutta/dop853_coefficients.py", "nbkode/core.py:Solver.run", "nbkode/core.py:Solver.interpolate"]}
{"id": "C95", "title": "DOP853 makes progress: every call returns or raises ZeroDivisionError", "statement": "Let the right-hand side be Lipschitz and defined for every state and bounded at y = 0 over the interval, atol > 0, rtol >= 0, 0 < min_factor < 1, 0 < safety_factor < 1 <= max_factor. For a problem, initial state, first step size and final time te there are hmin > 0 and a number of trials N such that after any calls, returning or raising, while the time is at most te, the step size of a DOP853 instance (under numba) is at least hmin and, unless t_bound is in the way, step() either takes a step that advances the time by at least hmin or raises ZeroDivisionError leaving the recorded rows alone. So step(upto_t), skip(upto_t) and, after calls that returned, run(times) up to te return or raise ZeroDivisionError; no loop runs forever and no other error occurs.", "quantifier": "every Lipschitz right-hand side, initial state, options, first step size, final time, previous calls", "why_tests_cant": "A lower bound for all step sizes the controller can ever select, over all equations; the error occurs when the error estimate vanishes.", "anchors": ["nbkode/runge_kutta/explicit.py:DOP853", "nbkode/runge_kutta/core.py", "nbkode/core.py"]}
