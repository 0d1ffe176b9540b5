# Formal model of Atom-Toolkit in Rocq

The model lives in `rocq/theories` (logical name `Verif`).  It follows
`/repo/atomtoolkit` function by function.  Each definition has a comment with
the file and lines it mirrors, and says where it simplifies.
`properties.jsonl` lists the properties, `MANIFEST.json` the theorems about each,
`seeded/LOG.jsonl` the wrong programs the theorems were tried against.  In the log
`theorems_failed` are the first declarations that no longer compile, sometimes helper
lemmas; what depends on them was then not tried.

## How the code is modelled

* **Spins** (`J`, `I`, `F`, `mF`, `L`, `S`, `K`) are integers counting halves: `2J : Z`.
  The code holds them as floats; half-integers below 2^52 are exact in binary64.
* **Numbers** (energies, constants, coefficients) are taken from a record `Num`
  of operations.  Structural theorems hold for *any* such record.  Arithmetic
  theorems use the instance of exact rationals `Qc` (called `Exact`).  Theorems about
  rounding use the instance of IEEE binary64 (`SpecFloat`, precision 53, emax 1024).
  Reals are used only where a square root, an exponential or a trigonometric function occurs,
  and to measure rounding errors (`FloatRound`, with Flocq's proof that the operations round correctly).
* **Exceptions** are values (`KeyError`, `AttributeError`, ...).  Stateful methods are
  functions `state -> result * state`, so effects made before an exception stay visible.
* **Python dicts** are association lists in insertion order; assignment to an
  existing key keeps its place.
* **Objects** (levels, transitions) live in a heap indexed by identity.  Lazily filled
  sub-dictionaries are part of the heap, so history dependence is visible.
* **Histories.**  `reachable s` means that `s` is reached from a new atom by *some* finite
  sequence of public operations (the constructors of `op`), each of which may raise.
  Theorems about atoms hold for every reachable state.  They are proved with an invariant
  `WF` kept by every operation (`run_WF`), and with relations (`ext`, `still`, ...) between
  the state before and after.
* **networkx** graphs are ordered node and adjacency dictionaries.  Where the iteration
  order of a subgraph view depends on hashing, it is an arbitrary permutation
  supplied by an oracle and every theorem quantifies over the oracle.  `x in graph.edges()`
  is False for anything that does not unpack to two nodes (C138).
* **External functions.** Wigner 3j / 6j symbols are modelled by the Racah formula that
  the sympy functions implement: exact rationals for squares and for zero tests.
  pandas and file access are represented by tables (lists of rows).
* **Regular expressions** used by the parsers are run by a small backtracking matcher.

## What is modelled where

| code | model | proofs | properties |
|------|-------|--------|------------|
| `util.py` labels, letters, `frac_to_float`, `float_to_frac` | `Util`, `PyStr` | `UtilProofs`, `PropUtil` | C01-C03 |
| `util.py` term parsers, classifier | `Regex`, `Parse` | `ParseProofs`, `ParseProofs2`, `PropUtil` | C04-C06 |
| `term.py` | `Term` | `TermProofs`, `PropTerm` | C07-C11 |
| `atom.py` energies, g-factors | `Hyperfine` | `HyperfineProofs`, `PropHyperfine` | C14-C20 |
| `atom.py` levels, transitions, atom; `atom_helpers.py` lookup | `Atom`, `Graph`, `Rules` | `AtomInv` ... `AtomTrans`, `PropSublevels`, `PropTransitions` | C12, C13, C21-C35, C48-C51 |
| `atom.py` frequencies, `enforce_consistency` | `Atom` | `AtomEnforce*`, `PropEnforce`, `FloatInt`, `PropFloat`, `FloatRound`, `PropRound`, `PropRoundSub` | C41-C47, C142, C146 |
| `atom.py` line strengths | `Rules`, `Wigner` | `Wigner*`, `StrengthSums`, `StrengthPos`, `AtomStrength`, `PropStrength` | C36-C38 |
| `atom.py` branching ratios, lifetimes | `Atom` | `AtomDecay`, `AtomOrder`, `PropDecay`, `PropRoundDecay` | C52-C56, C148 |
| `transition_strengths.py` | `Strengths` | `StrengthProofs`, `PropTensor` | C39, C40, C66 |
| `render/grotrian.py` coordinates | `Grotrian` | `GrotrianProofs`, `PropRender` | C63-C65, C67-C71 |
| `render/lineshapes.py`, colour tables and totals of `render/spectra.py` | `Lineshapes` | `PropLineshapes` | C61, C62, C72-C81 |
| `IO.py` csv files, NIST strings, `Atom.save` file names | `IO` | `PropIO` | C57-C60, C82, C83 |
| `IO.py` NIST columns | `Nist` | `PropNist` | C91-C95 |
| atoms from tables | `Tables` | `PropTables` | C84-C90 |
| `atom_helpers.py` views, slices; `Atom.__init__` with lists | `Views` | `PropViews` | C96-C100 |
| `transition_strengths.py` and `util.py` basis conversions; g-values of coupled levels | `Coupling` | `WignerOrth`, `WignerNorm`, `WignerNine`, `CouplingProofs`, `CouplingList`, `CouplingTerms`, `PropCoupling` | C101-C105, C110 |
| E2 line strengths | `Rules` | `AtomQuad`, `PropQuad` | C106 |
| `environment.py` | `Environment` | `PropEnvironment` | C107-C109 |
| matrix elements of tensor operators, sums over states | `Strengths` | `WignerClebsch`, `PropTensorSums`, `PropPolarisation` | C111-C115 |
| labels of NIST terms | `Tables` | `PropNist` | C116 |
| `render/spectra.py` drawing functions: curves, heights, labels, exceptions | `Spectra` | `PropSpectra` | C117-C121 |
| `load_transition_data`, tables with frequencies | `FreqTable` | `PropFreqTable` | C123-C124 |
| dictionary methods of levels and transitions | `DictView` | `PropDictView` | C125-C127 |
| `render/grotrian.py` `draw_levels` | `DrawLevels` | `PropDrawLevels` | C128 |
| several atoms, each level with its own reference to an atom (levels only) | `Isotopes` | `PropIsotopes` | C129 |
| `atom_helpers.py` lookup of lines by the names of sublevels | `Atom` | `PropTrKeys` | C130 |
| `render/grotrian.py` `add_level`, `add_transition`, `render`, `render_levels`, `render_transitions` | `Render` | `PropRenderAll` | C71, C131–C133 |
| reading operations of levels, transitions and `linked_levels` | `Atom` | `PropLooking` | C134 |
| exceptions raised by the operations | `Atom` | `PropFailed` | C147 |
| `lru_cache` of `JJ_to_LS`, `JK_to_LS`, `LK_to_LS`, arrays shared with callers | `Cache` | `PropCache` | C135 |
| `atom_helpers.py` deleting and replacing transitions | `Atom`, `Views` | `PropStay` | C136 |
| `atom.py` `set_frequency`: which levels can change | `Atom` | `PropLocal` | C137 |
| `atom.py` `set_frequency`: the order of several calls | `Atom` | `PropOrder` | C149 |
| `atom.py` `enforce_consistency` with an argument | `Restrict` | `PropRestrict` | C138 |
| `atom.py` `BaseLevel.__setitem__`, `BaseTransition.__setitem__` | `DictView` | `PropAssign` | C139 |
| `term.py` `MultiTerm` as a `collections.abc.Sequence` | `Sequence` | `PropSequence` | C140 |
| `__repr__`, `__str__` of terms, levels, transitions, atoms and views | `Sequence`, `Printing` | `PropPrinting` | C141 |
| `__init__.py` units, `level`, `wl`, `set_frequency` with quantities | `Units` | `PropUnits` | C143 |
| `HFTransition`/`ZTransition.compute_linewidth` summed over lines | `Atom`, `Rules` | `PropHfDecay` | C144 |
| aliases of transitions | `Atom` | `PropTrAlias` | C145 |
| `Atom.add_level` in different orders | `Atom`, `AtomSame` | `PropBuild` | C150 |
| aliases of levels as keys | `Atom` | `PropAliasKeys` | C151 |
| frequencies and strengths of split lines | `Atom`, `AtomStrength`, `AtomQuad`, `AtomSib` | `PropCentre` | C152 |
| `Atom.add_transition` in different orders | `Atom` | `PropLink` | C153 |
| setters of hyperfine constants and of the field | `Atom`, `Units` | `PropParams` | C154 |
| the whole interface on two scales of energy | `Atom` | `PropAffine` | C155 |
| the whole interface with other A coefficients | `Atom` | `PropRates` | C156 |
| the whole interface under two iteration orders | `Atom` | `PropHash` | C157 |
| `enforce_consistency` from scratch: what stays | `Atom` | `PropAnchor` | C158 |
| `enforce_consistency` with old and new constraints | `Atom` | `PropHang` | C159 |
| `species/Yb_II_171.py`, `Yb_II_173.py`, `Yb_II_174.py` after the atom was generated | `PropSpecies` | `PropSpecies` | C160 |
| the same files from the tables on | `PropPipeline`, `Tables`, `IO` | `PropPipeline` | C161 |
| the same uses for other isotopes and fields | `Atom` | `PropGross` | C162 |

`AtomExample` builds the concrete atoms used to show that the theorems have instances
(`..._case` next to each theorem) and that some claims are false (`..._refuted`).

## Naming

* `Cnn_...`: a theorem towards property Cnn as stated.
* `Cnn_..._partial`: proved under restrictions that the statement does not have; the note
  in `MANIFEST.json` and the comment say which.
* `Cnn_..._refuted`: a concrete reachable state or input on which the claim is false
  in the model, that is, a defect of the code.
* `Cnn_..._case`: the hypotheses of the theorem above are met by something non-trivial.

## What is not modelled

* Several atoms sharing transitions; one state of `Atom.v` contains one atom and all
  objects that can reach it.  `Isotopes.v` has several atoms, but only their levels.
* Units in `environment.py`; `radius_at` for numpy numbers.
* Units other than frequencies, except in C143 (and the mixed units of A coefficients); pint
  itself, except the conversions of its spectroscopy context and that subtraction needs equal
  dimensions.  Elsewhere quantities are numbers in Hz.  Printing and reading a quantity are parameters of the
  file theorems.
* What a level or transition assigned with `level[key] = x` or `transition[key] = x` does
  later on: C139 is about the state right after the assignment, and the assignment is not
  one of the operations of a history.
* The order of summation inside `np.sum`; sums are taken in list order.
* Branching ratios when the total rate is 0 (nan in the code).
* `linked_levels` recursion is cut off by a fuel of 3, the depth of the level tree.
* The E2 orthogonality warning; non-half-integer spins.
* matplotlib (except that a collection deals out its colours and widths in turn and that a
  patch refuses unknown keywords), hues of colours, fonts, figure sizes; `level_ordering`
  other than `'J'`; strategies given as functions; rendering a diagram to which no level
  was added.
* Rounding of coordinates, line shapes and strengths: these are exact rationals or reals.
  Rounding is treated for frequency propagation (C46, C142), energies (C146), branching
  ratios and total rates (C148; A coefficients are added from the left, as Python's `sum`
  does and as `np.sum` does for fewer than eight of them).
* Bessel, Voigt and Faddeeva functions: parameters with the stated properties.
* pandas mechanics (type inference, merging, missing values as such); cells are strings or
  `None` and rows are records.
* Characters outside Latin-1, text encodings, pickle, file system errors.
* `\d` matches ASCII digits only; float literals have no underscores, `inf` or `nan`.
* In the constructor of a transition the edge is added after the line width is computed;
  in the code before.  Nothing reads the graph in between.

## Trusted base

* The kernel of Coq 8.16.1 (`coqchk` re-checks all files).
* The axioms below, all from the standard library; none are added.
* That the model says what the cited lines do.

`Print Assumptions` (it is run next to each theorem) lists:

* nothing (closed under the global context), for the 440 theorems of the manifest not named below;
* `ClassicalDedekindReals.sig_forall_dec`, `ClassicalDedekindReals.sig_not_dec`, `FunctionalExtensionality.functional_extensionality_dep`, for 65 theorems: `C39_square`, `C40_E1_M1`, `C40_E2_partial`, `C40_E2_refuted`, `C40_array_refuted`, `C40_average`, `C40_complex_refuted`, `C40_scale`, `C40_vanish_E1`, `C56_channel`, `C56_missing`, `C56_rates`, `C66_E1_M1`, `C66_E2_partial`, `C66_E2_refuted`, `C77_partial`, `C77_refuted`, `C79_refuted`, `C101_JJ_electron_refuted`, `C101_JJ_terms`, `C101_JK`, `C101_LK`, `C102_JJ`, `C102_JJ_complete`, `C102_JK`, `C102_JK_complete`, `C102_LK`, `C102_LK_complete`, `C103_JJ_terms`, `C103_JK`, `C103_LK`, `C103_LS`, `C104_JJ_refuted`, `C104_JK_refuted`, `C104_missing_partial`, `C105_mixture_refuted`, `C105_pure_partial`, `C107_partial`, `C107_short_refuted`, `C108_longitudinal_refuted`, `C108_perpendicular`, `C108_wave_partial`, `C109_focus_refuted`, `C109_magnetic_refuted`, `C109_width_partial`, `C110_refuted`, `C111_component`, `C111_into`, `C111_isotropic`, `C111_orthogonal`, `C112_corrected_partial`, `C113_exchanged`, `C113_reversed`, `C114_E2_refuted`, `C114_circular`, `C114_components`, `C114_phase`, `C114_strength_refuted`, `C114_turned`, `C115_isotropic`, `C135_conversions`, `C135_internal`, `C135_once`, `C135_partial`, `C135_refuted`;
* `ClassicalDedekindReals.sig_forall_dec`, `FunctionalExtensionality.functional_extensionality_dep`, for 16 theorems: `C40_E2_average`, `C61_lorentzian`, `C62_in_range_partial`, `C62_partial`, `C62_refuted`, `C74_modulated`, `C75_samples`, `C76_default`, `C76_partial`, `C76_refuted`, `C78_partial`, `C80_partial`, `C80_refuted`, `C81_partial`, `C81_refuted`, `C109_refuted`;
* `ClassicalDedekindReals.sig_forall_dec`, `ClassicalDedekindReals.sig_not_dec`, `Classical_Prop.classic`, `FunctionalExtensionality.functional_extensionality_dep`, for 11 theorems: `C72_gaussian`, `C73_fwhm`, `C75_partial`, `C75_thermal_refuted`, `C78_refuted`, `C109_phase_partial`, `C109_power_partial`, `C142_rounding`, `C146_moves`, `C148_rate`, `C148_ratios`.

The first three come with the real numbers of the standard library.  `classic` comes with its
exponential, logarithm and square root lemmas.
No library outside the standard library is used.
