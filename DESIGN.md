# Formal model of numbakit-ode in Rocq (Coq 8.16.1)

`rocq/theories` holds a model of the Python package `nbkode`, written function by
function, and proofs of the properties in `properties.jsonl`. `MANIFEST.json` says for
each property which theorems settle it. The code was read, never run.

## How to read it

| files | content |
|-------|---------|
| `Base`, `Scalar`, `Vec` | exceptions as values, scalar operations, vectors |
| `MBuffer`, `MZeros`, `MSteps`, `MApi`, `MDop853`, `MClasses`, `MRegistry`, `MShipped` | the model; every definition cites file and lines in /repo |
| `Laws` | laws of the scalar instances |
| `Spec*` | vocabulary of the statements, independent of the model's helpers |
| `P*` | proofs (`PRef*` and parts of others: witnesses of refutations) |
| `Ex`, `PExR`, `PConv8`, `PTop1`, … | concrete instances used by the examples |
| `Props1` … | the property theorems only: `Theorem`, `exact lemma`, `Print Assumptions`, and beside each theorem an `Example` that its hypotheses are met |

`C07` proves property C07; `C24_partial` proves part of C24; `C24_refuted` proves that
C24 as stated is false of the code, by a witness. Other suffixes (`C24_recovers`) are
further parts of the same property. A property whose statement is false has the status
"partial" in the manifest, and its note begins with "Refuted".

## Approach

* Shallow model. `outcome A = Ret a | Raise e | Loop`. Mutations made before an
  exception persist, as in Python: `M S A = S -> outcome A * S`.
* `Loop` means that the fuel of a Python `while` loop ran out. It is never a normal
  answer: theorems speak about calls that return (or raise), or prove for every
  sufficiently large fuel that the call returns, or for every fuel that it does not.
* All functions take a record of scalar operations `Ops` without laws. Instances:
  the reals (`Rops`), exact executable rationals (`Qcops`), IEEE binary64 (`SFops`, the
  standard library's `SpecFloat`). Theorems about control flow hold for every `Ops`,
  those that need only an order for every `OrdLaws` (binary64 included), the numerical
  ones for the reals. The statement shows which. C81 relates the two: `SFops_at` is the
  IEEE arithmetic with any precision and range, `SFops` its case 53, 1024.
* numpy views of the history buffer are explicit (`arr = Own v | CacheRow i`), so
  aliasing is visible. `np.empty` contents are arbitrary (`garbage`).
* User callables (rhs, events) are arbitrary functions that may raise.
* An instance is described by `built` (any of the 26 shipped classes, or any
  coefficients of the five method families, any constructor arguments) and `reachable`
  (any sequence of step/skip/run/run_events/interpolate calls, raising or not).

## Trusted base

1. Coq's kernel, including its virtual machine (`vm_compute`), and `coqc`.
2. The axioms that `Print Assumptions` lists. `ASSUMPTIONS.md` has them theorem by
   theorem. They are all from the standard library: `functional_extensionality_dep`,
   `sig_forall_dec`, `sig_not_dec` (the construction of the reals) and
   `Classical_Prop.classic`.
   No axiom is added here. The proofs of C81, C90, `C10_rounding`, `C12_partial` and `C63_partial` use Flocq's theorems about rounding; they
   rest on the same four axioms.
3. The reading of the Python code by the model. Assumptions about what is outside it:
   * `np.linalg.solve` is a parameter `np_solve`; where a theorem needs it to solve
     the system it says so.
   * `np.argsort` on floats is a parameter; `argsorts` says that it returns a sorting
     permutation (not necessarily stable).
   * scipy's `select_initial_step` is a parameter, an arbitrary function of (t, y, f).
   * weighted sums (`A @ K`, `B @ K`) are added from left to right without fused
     multiply-add; over the reals the order does not matter.
   * `libm`'s `pow` is a parameter of the binary64 instance; over the reals it is
     `Rpower`.
   * numba: jitted code means what the Python code means, except that scalar division
     by zero raises `ZeroDivisionError` (`numba_mode = true`) instead of giving
     inf/nan (`false`). Overlapping slice assignment copies.
   * `collections.OrderedDict` and the mixin methods of `collections.abc`.

## What is modelled

| source | model | remarks |
|--------|-------|---------|
| buffer.py | `MBuffer` | all |
| core.py:106-141, 684-706 | `init_base`, `init_var`, `make_rhs` | jitting itself is not modelled; conversions `float(t0)`, `np.array(y0)` are the identity |
| core.py:143-184 | `init_subclass` (registry part), `step_` (the guarded step) | |
| core.py:208-647 | `MApi`: step, skip, run, run_events, interpolate and their loops | `n` an integer, `upto_t` a number or `np.inf` (NaN exists in binary64), `t` a list of numbers |
| core.py:650-680 | `options` | |
| core.py:709-800 | `MRegistry`: check, get_solvers, get_groups, list_solvers, get_solver | |
| event_handler.py | `MApi`: Event, EventHandler, build_handler | typed lists are lists |
| multistep/core.py, adams_*.py, bdf.py, euler.py | `MSteps`, `MClasses` | |
| runge_kutta/core.py, explicit.py, dop853_coefficients.py | `MSteps`, `MClasses`, `MDop853` | `AdaptiveRungeKutta._step_builder` (lines 101-128; no concrete class uses it) is in `MAdaptive` |
| runge_kutta/implicit.py, linearly_implicit.py, diagonally_implicit.py, `Fehlberg45`, `RungeKutta.consistent` | `MImplicit` | the step functions, coefficients and class properties; the modules cannot be imported (`..order` does not exist; defining `SDIRK` reads a missing `A`), so no instance is modelled. `newton_hd` on a two-dimensional array is a parameter (`root_solver`), so are `np.linalg.inv` and `np.linalg.solve`. `RadauIA5` has no `A`, `AdaptiveROS3P.E` and `M2` are not modelled |
| nbcompat/zeros.py | `MZeros` | the scalar path of `newton`, `j_newton`; `newton_hd`; `bisect`; the array path delegates to scipy (`zeros._array_newton`) and is not modelled |
| nbcompat/common.py | `MZeros` | isclose, clip |
| nbcompat/numbasub.py | `MRegistry` | optional_arg_decorator and the no-op decorators |
| util.py | `MRegistry` | CaseInsensitiveDict with ASCII keys |
| \_\_init\_\_.py | `MRegistry` | module `__getattr__`, `__dir__` |

## What is not modelled

* `runge_kutta/stabilized_explicit.py`: an empty subclass of `ERK`, not imported by the package.
* Compilation: numba typing errors, caching, performance, warnings other than the call
  to the non-existent `warnings.warning`.
* Shapes: vectors are lists; numpy's broadcasting or its errors on a shape mismatch are
  not modelled. Theorems that depend on shapes assume that the rhs keeps the dimension
  (`keeps_dim`). Dense linear algebra sums left to right (BLAS may not).
* Memory other than the views of the history buffer; `params` is taken not to be
  modified after construction.
* Rounding in the numerical theorems (orders, convergence, controller): these are over
  the reals. Refutations that need rounding are in binary64. Rounding is covered by C81
  (states of the fixed step Runge-Kutta classes), C90 (`run` with them), `C10_rounding` (the time), `C12_partial`
  (termination) and `C63_partial` (bisect), for any precision and exponent range.

## Findings (all proved as `_refuted` theorems)

| id | finding |
|----|---------|
| C03 | at t_bound `step()` returns None where `step(n=1)` raises; `step(n=k, upto_t=inf)` raises ValueError when t_bound is finite |
| C04 | `upto_t=nan` passes t_bound |
| C05 | start-up of a multistep solver ignores t_bound; with the default first stepper it asks for the absolute times h, 2h, … whatever t0 is |
| C12 | h <= 0 is accepted and calls never return; so does h below the float spacing |
| C14 | `run` drops requested times when a whole step does not fit below t_bound |
| C20, C49 | with LEN_HISTORY > 2 the interpolant uses only the ends of the window, so recorded states are not reproduced and event location may raise |
| C24 | after a step whose rhs raised, dense output mixes the stages of two steps |
| C25 | `step()` and `y_events` return views of the history |
| C27, C28, C73 | Adams-Bashforth 2-5 and Adams-Moulton 4, 5 apply their coefficients in the wrong order |
| C30, C79 | implicit steps in dimension > 1 may not move: newton_hd accepts the start value; BDF2-6 without first stepper are inconsistent in the first steps |
| C32 | DOP853's decimal coefficients satisfy the order conditions only to 1e-28 |
| C33 | with the default first stepper and t0 < 0 the start-up error does not shrink with h; with t0 > 0 the constructor raises ValueError for h < t0 |
| C37 | min_step and max_step are never read |
| C38 | a vanishing error estimate makes DOP853 raise ZeroDivisionError (numba) or never return (numpy) |
| C39 | a variable step is refused, not shortened, at t_bound |
| C45, C48 | with several terminal events in a step the last listed wins, and later events are still reported |
| C47 | requests that include past or current times raise AttributeError when events are given |
| C50 | unsorted requests cut short raise IndexError |
| C54 | a rejected class definition stays in the registry |
| C56 | IMPLICIT of multistep classes is inverted |
| C58 | `nbkode.euler` is the module, `dir(nbkode)` is cached |
| C80 | the names listed by a failed `get_solver` are frozen at the first failure |
| C63 | bisect misses a sign change when the product underflows |
| C75 | Fehlberg45: the weights B have order 4 and B2 order 5, documented the other way round |
| C76, C77 | `jacobian` of the linearly implicit methods is transposed, so ROS3P has order 1 on non-symmetric systems; the embedded formula of AdaptiveROS3P has order 2, not 3 |
| C82 | the step of the adaptive classes that are not FSAL is called with too few arguments and always raises TypeError |
| C87 | the constructor of DOP853 evaluates the right-hand side at states made from uninitialised memory (NaN possible) |
| C88 | min_factor, max_factor, safety_factor and first_step are not checked; min_factor = 1 or first_step <= 0 never returns |
| C89 | the default first stepper does not refine with h, so multistep classes of order 3 and more start with rows of second order only |
| C91 | a right-hand side that vanishes at the nodes of the first step is accepted with error estimate zero, whatever the tolerances |

## Testing the theorems

`seeded/LOG.jsonl` records wrong versions of the model that were built in a scratch copy:
the definition and edit, the claim the edit breaks, the theorems whose proofs no longer
go through, and the theorems tightened as a result.

## Rebuilding

`cd rocq && coq_makefile -f _CoqProject -o Makefile && make -j4` (about 12 minutes).
`python3 tools/gen_manifest.py` and `tools/gen_assumptions.py` (after a build) rewrite
`MANIFEST.json` and `ASSUMPTIONS.md`; `tools/gen_dop853.py` transcribed the coefficients
of DOP853.
