{"id": "C01", "title": "Half-integer labels round-trip", "statement": "frac_to_float(float_to_frac(x)) == x for every half-integer x, and two different half-integers never get the same label.", "quantifier": "all half-integers x, y (unbounded, both signs)", "why_tests_cant": "the set of half-integers is infinite; tests sample five of them", "anchors": ["atomtoolkit/util.py:frac_to_float", "atomtoolkit/util.py:float_to_frac"]}
{"id": "C02", "title": "float_to_frac never mislabels a number", "statement": "float_to_frac(x) denotes x for every number x it accepts (otherwise it raises).", "quantifier": "all rational x", "why_tests_cant": "quantifies over all numbers; the tests only use half-integers", "anchors": ["atomtoolkit/util.py:float_to_frac"]}
{"id": "C03", "title": "Spectroscopic letters and L are inverse", "statement": "let_to_l and l_to_let are inverse on 0..20 and on the 21 letters (upper or lower case); every other one-character string, every longer string and every L outside 0..20 is rejected.", "quantifier": "all strings, all integers L", "why_tests_cant": "rejection is a statement about every other input", "anchors": ["atomtoolkit/util.py:let_to_l", "atomtoolkit/util.py:l_to_let"]}
{"id": "C04", "title": "Coupling scheme is read off the term symbol", "statement": "Every term symbol written in NIST form is classified as the scheme it was written in: LS {2S+1}{L}, JK {2S+1}[K], LK {L} {2S+1}[K], JJ (Jc,Jo).", "quantifier": "all multiplicities, letters, K, Jc, Jo, parity marks", "why_tests_cant": "infinitely many symbols", "anchors": ["atomtoolkit/util.py:get_term_coupling"]}
{"id": "C05", "title": "LS term symbols parse to the numbers they were printed from", "statement": "For every spin S and orbital L, get_quantum_nums(conf, '{2S+1}{L}' with or without '*') returns l=L, s=S and nothing else.", "quantifier": "all S (unbounded), all 21 letters, both parities, every configuration string", "why_tests_cant": "unbounded multiplicities and arbitrary configuration strings", "anchors": ["atomtoolkit/util.py:parse_LS_term", "atomtoolkit/util.py:get_quantum_nums"]}
{"id": "C06", "title": "JK, LK and JJ term symbols parse to the numbers they were printed from", "statement": "For a configuration with one core term and an outer electron (or two ancestor terms) in NIST notation and a JK / LK / JJ term, get_quantum_nums returns exactly lc, sc, lo, so, jc, jo, l, k of the notation.", "quantifier": "all core terms, all outer terms, all J, K values", "why_tests_cant": "products of infinite families of strings", "anchors": ["atomtoolkit/util.py:parse_JK_term", "atomtoolkit/util.py:parse_LK_term", "atomtoolkit/util.py:parse_JJ_term"]}
{"id": "C07", "title": "Level names identify quantum states", "statement": "For configurations without blanks or '=' and term symbols without '=' that do not end in a digit, two different (configuration, term, J, F, mF) states never share a name, at any of the three depths, and every name can be taken apart again into the level, F and mF.", "quantifier": "all names, all half-integer F, mF", "why_tests_cant": "a collision can occur for any pair of strings", "anchors": ["atomtoolkit/term.py:Term.__init__", "atomtoolkit/atom_helpers.py:LevelStructure.__getitem__"]}
{"id": "C08", "title": "Equal terms have equal quantum numbers", "statement": "Term == Term holds exactly when the two terms denote the same state (configuration, term symbol, J, F, mF).", "quantifier": "all pairs of terms", "why_tests_cant": "all pairs; the test list contains no pair differing only in J", "anchors": ["atomtoolkit/term.py:Term.__eq__"]}
{"id": "C09", "title": "MultiTerm equality is an equivalence", "statement": "MultiTerm == MultiTerm is reflexive, symmetric and never raises.", "quantifier": "all pairs of MultiTerms", "why_tests_cant": "symmetry is a statement on all pairs of different lengths", "anchors": ["atomtoolkit/term.py:MultiTerm.__eq__"]}
{"id": "C10", "title": "A MultiTerm answers for its leading component", "statement": "A MultiTerm contains exactly the terms given, ordered by decreasing percentage, every term attribute is that of a component of largest percentage, and make_term_copy(F, mF) puts the F/mF on every component and keeps everything else.", "quantifier": "all lists of terms and percentages (ties included)", "why_tests_cant": "any list length, any order, ties", "anchors": ["atomtoolkit/term.py:MultiTerm.__init__", "atomtoolkit/term.py:MultiTerm.__getattribute__", "atomtoolkit/term.py:MultiTerm.make_term_copy"]}
{"id": "C11", "title": "Every component of a MultiTerm contributes to the Lande estimate", "statement": "terms_dict holds one entry per component term.", "quantifier": "all lists of terms", "why_tests_cant": "ties between percentages", "anchors": ["atomtoolkit/term.py:MultiTerm.__init__", "atomtoolkit/atom.py:EnergyLevel.compute_gJ"]}
{"id": "C12", "title": "Hyperfine sublevels are exactly the allowed F", "statement": "In an atom with nuclear spin I, a level with angular momentum J has exactly the sublevels F = |I-J|, |I-J|+1, ..., I+J, each once, in increasing order, under the key 'F=<F>'.", "quantifier": "all half-integers I, J >= 0", "why_tests_cant": "all pairs of spins", "anchors": ["atomtoolkit/atom.py:EnergyLevel.populate_sublevels"]}
{"id": "C13", "title": "Zeeman sublevels are exactly the allowed mF", "statement": "A hyperfine level F has exactly the sublevels mF = -F, ..., F, each once, in increasing order, under the key 'mF=<mF>'; the total number of Zeeman states in a manifold is (2I+1)(2J+1).", "quantifier": "all half-integers I, J, F", "why_tests_cant": "all spins", "anchors": ["atomtoolkit/atom.py:HFLevel.populate_sublevels"]}
{"id": "C14", "title": "Hyperfine structure preserves the centre of gravity", "statement": "For every I, J and hyperfine constants A, B, C the (2F+1)-weighted mean of the hyperfine shifts of a level is zero, so the weighted mean of the sublevel energies is the level's energy.", "quantifier": "all I, J, A, B, C, level energies", "why_tests_cant": "infinitely many spins and real constants", "anchors": ["atomtoolkit/atom.py:HFLevel.compute_hf_shift", "atomtoolkit/atom.py:HFLevel.level_Hz"]}
{"id": "C15", "title": "Lande interval rule", "statement": "With B = C = 0, adjacent hyperfine levels F-1 and F are separated by A*F.", "quantifier": "all I, J, F, A", "why_tests_cant": "all spins", "anchors": ["atomtoolkit/atom.py:HFLevel.compute_hf_shift"]}
{"id": "C16", "title": "Normalisation of the hyperfine constants", "statement": "The stretched level F = I + J is shifted by A*I*J + B/4 + C, with B present only for I, J >= 1 and C only for I, J >= 3/2 (the standard definition of the constants, symmetric in I and J).", "quantifier": "all I, J, A, B, C", "why_tests_cant": "all spins", "anchors": ["atomtoolkit/atom.py:HFLevel.compute_hf_shift"]}
{"id": "C17", "title": "Hyperfine g-factors", "statement": "gF = 0 for F = 0, gF = gJ when I = 0, the stretched level has F*gF = J*gJ, and the (2F+1)F(F+1)gF-weighted sum equals that of the uncoupled moment.", "quantifier": "all I, J, F, gJ", "why_tests_cant": "all spins", "anchors": ["atomtoolkit/atom.py:HFLevel.compute_gF"]}
{"id": "C18", "title": "Linear Zeeman effect", "statement": "The Zeeman shifts of the sublevels of a hyperfine level are equally spaced by gF*mu_B*B, antisymmetric in mF, sum to zero, and all vanish at B = 0 (for quadratic coefficient 0).", "quantifier": "all F, mF, B, gF", "why_tests_cant": "all fields and spins", "anchors": ["atomtoolkit/atom.py:ZLevel.shift_Hz"]}
{"id": "C19", "title": "Default Lande factor is the textbook value", "statement": "An LS level created without a g-value gets gJ = 1 + 1.0023*(J(J+1)+S(S+1)-L(L+1))/(2J(J+1)).", "quantifier": "all L, S, J, percentages", "why_tests_cant": "no test reads the value", "anchors": ["atomtoolkit/atom.py:EnergyLevel.compute_gJ"]}
{"id": "C20", "title": "Every sublevel has a finite energy", "statement": "For every level with finite energy and constants, the energies of all its hyperfine and Zeeman sublevels are finite numbers.", "quantifier": "all J (including 0), I, B", "why_tests_cant": "J = 0 levels are not among the fixtures", "anchors": ["atomtoolkit/atom.py:EnergyLevel.compute_gJ", "atomtoolkit/atom.py:HFLevel.compute_gF", "atomtoolkit/atom.py:ZLevel.shift_Hz"]}
{"id": "C21", "title": "Moving a sublevel moves its manifold rigidly", "statement": "After sub.level = v on any hyperfine or Zeeman sublevel, sub.level == v, every other sublevel of the manifold moved by the same amount, and no other manifold moved.", "quantifier": "all atoms, sublevels, values v", "why_tests_cant": "every reachable atom state", "anchors": ["atomtoolkit/atom.py:HFLevel.level", "atomtoolkit/atom.py:EnergyLevel.level_Hz"]}
{"id": "C22", "title": "Derived g-factors and strengths follow the current parameters", "statement": "The Zeeman shift of a sublevel and the linewidth of a subtransition depend only on the current g-value / A coefficient of the parent, not on whether sublevels or subtransitions were looked at before the parameter was set.", "quantifier": "all histories of accesses and assignments", "why_tests_cant": "depends on the order of operations", "anchors": ["atomtoolkit/atom.py:HFLevel.__init__", "atomtoolkit/atom.py:HFTransition.compute_linewidth", "atomtoolkit/atom.py:lazy_compute_sublevels"]}
{"id": "C23", "title": "Every access path to a level gives the same object", "statement": "atom.levels[name], [alias], [name + ' F=f'], [name + ' F=f mF=m'], level['F=f']['mF=m'] (and 'mJ=m' when I = 0) return the same object, no matter how often and in which order they are used.", "quantifier": "all histories of operations, all names", "why_tests_cant": "laziness makes it history dependent", "anchors": ["atomtoolkit/atom_helpers.py:LevelStructure.__getitem__", "atomtoolkit/atom.py:BaseLevel.__getitem__", "atomtoolkit/atom.py:lazy_compute_sublevels"]}
{"id": "C24", "title": "mJ access is refused for atoms with nuclear spin", "statement": "levels['<name> mJ=m'] returns a sublevel only when I = 0.", "quantifier": "all atoms", "why_tests_cant": "all spins I", "anchors": ["atomtoolkit/atom_helpers.py:LevelStructure.__getitem__"]}
{"id": "C25", "title": "Integer access is by energy", "statement": "levels[i] for 0 <= i < len(levels) enumerates all levels of the atom, each once, in non-decreasing energy.", "quantifier": "all atom states", "why_tests_cant": "all orders of insertion and energies", "anchors": ["atomtoolkit/atom_helpers.py:LevelStructure.__getitem__"]}
{"id": "C26", "title": "The atom holds one level per name", "statement": "After any sequence of add_level calls, levels contains exactly the names added, levels[name] is the last level added under that name, and iteration order is first-insertion order.", "quantifier": "all sequences of additions", "why_tests_cant": "all sequences", "anchors": ["atomtoolkit/atom.py:Atom.add_level", "atomtoolkit/atom.py:BaseLevel.add_to_atom"]}
{"id": "C27", "title": "Deleted levels are gone", "statement": "After del atom.levels[name], no access path of atom.levels returns the level and no transition of the atom touches it.", "quantifier": "all histories", "why_tests_cant": "depends on aliases set before", "anchors": ["atomtoolkit/atom_helpers.py:LevelStructure.__delitem__"]}
{"id": "C28", "title": "Aliases name one object", "statement": "After x.alias = a, levels[a] is x until another level takes a; setting an alias changes no other lookup.", "quantifier": "all histories", "why_tests_cant": "all histories", "anchors": ["atomtoolkit/atom.py:BaseLevel.alias", "atomtoolkit/atom_helpers.py:LevelStructure.__getitem__"]}
{"id": "C29", "title": "Transitions can be looked up in either order", "statement": "If the atom has a transition between levels a and b, transitions[(a,b)] and transitions[(b,a)] both return it.", "quantifier": "all atoms and insertion orders", "why_tests_cant": "depends on insertion order and energies", "anchors": ["atomtoolkit/atom_helpers.py:TransitionStructure.__getitem__"]}
{"id": "C30", "title": "Transitions can be looked up by level rank", "statement": "transitions[(n, m)] returns the transition between the n-th and m-th lowest levels.", "quantifier": "all atoms, n, m", "why_tests_cant": "documented, untested", "anchors": ["atomtoolkit/atom_helpers.py:TransitionStructure.__getitem__"]}
{"id": "C31", "title": "Subtransition lookup returns the transition asked for", "statement": "t[(x, y)] returns a subtransition between sublevel x of the lower and sublevel y of the upper level (or, failing that, between y of the lower and x of the upper), and raises KeyError otherwise.", "quantifier": "all transitions, all pairs of sublevel names", "why_tests_cant": "needs transitions with both (x,y) and (y,x)", "anchors": ["atomtoolkit/atom.py:BaseTransition.__getitem__"]}
{"id": "C32", "title": "Selection rules between levels", "statement": "A Transition is marked E1 / M1 / E2 exactly when parity and the triangle rule for multipole rank 1, 1, 2 allow it.", "quantifier": "all pairs of levels", "why_tests_cant": "all J pairs", "anchors": ["atomtoolkit/atom.py:Transition.transition_allowed"]}
{"id": "C33", "title": "Hyperfine selection rules are sound", "statement": "A subtransition listed by a Transition satisfies the triangle rules (F F' k), (J J' k) for some multipole k allowed for the parent, never F=0 to F=0, and joins a sublevel of one level to one of the other.", "quantifier": "all I, J, J', F, F'", "why_tests_cant": "all spins", "anchors": ["atomtoolkit/atom.py:HFTransition.transition_allowed", "atomtoolkit/atom.py:Transition.populate_subtransitions", "atomtoolkit/atom.py:BaseTransition._compute_sublevel_pairs"]}
{"id": "C34", "title": "Hyperfine subtransitions are complete", "statement": "Every pair of hyperfine sublevels with a non-vanishing 6j factor for a multipole allowed by the parent is listed.", "quantifier": "all I, J, J', F, F'", "why_tests_cant": "all spins and multipole combinations", "anchors": ["atomtoolkit/atom.py:BaseTransition._compute_sublevel_pairs", "atomtoolkit/atom.py:HFTransition.transition_allowed"]}
{"id": "C35", "title": "Zeeman selection rules", "statement": "A Zeeman subtransition is listed exactly when its 3j coefficient for some q is non-zero; then |mF-mF'| <= k, and (F,m=0)->(F,m=0) is excluded for k=1.", "quantifier": "all F, mF", "why_tests_cant": "all spins", "anchors": ["atomtoolkit/atom.py:ZTransition.transition_allowed", "atomtoolkit/atom.py:HFTransition.populate_subtransitions"]}
{"id": "C36", "title": "Hyperfine line strengths obey the sum rule", "statement": "The relative strengths of all hyperfine lines ending on (or starting from) one sublevel F1 add up to (2F1+1)/(2J1+1) for every F1; all lines of the multiplet together to 2I+1.", "quantifier": "all I, J1, J2, F1 with E1/M1 (k=1) coupling", "why_tests_cant": "an algebraic identity over all spins", "anchors": ["atomtoolkit/atom.py:HFTransition.compute_linewidth"]}
{"id": "C37", "title": "Zeeman line strengths obey the sum rule", "statement": "The relative strengths of all Zeeman components from one sublevel mF add up to 1/(2F+1), independent of mF; all components of a hyperfine line together to 1.", "quantifier": "all F, F', mF with E1/M1 (k=1) coupling", "why_tests_cant": "an algebraic identity over all spins", "anchors": ["atomtoolkit/atom.py:ZTransition.compute_linewidth"]}
{"id": "C38", "title": "Listed lines have positive strength", "statement": "If the parent has an A coefficient A > 0, every listed hyperfine or Zeeman subtransition has relative strength > 0 and A_sub = A_parent * rel_strength.", "quantifier": "all subtransitions, E1/M1/E2", "why_tests_cant": "all spins and multipoles", "anchors": ["atomtoolkit/atom.py:HFTransition.compute_linewidth", "atomtoolkit/atom.py:ZTransition.compute_linewidth"]}
{"id": "C39", "title": "Tensor strengths are symmetric and square to the matrix element", "statement": "tkq_mel(...)**2 == tkq_transition_strength(...), strengths are >= 0, vanish exactly when a selection rule forbids the transition, and do not change when initial and final state are exchanged with q -> -q.", "quantifier": "all arguments", "why_tests_cant": "all spins", "anchors": ["atomtoolkit/transition_strengths.py:tkq_transition_strength", "atomtoolkit/transition_strengths.py:tkq_mel"]}
{"id": "C40", "title": "Geometric strengths vanish for forbidden transitions and ignore polarisation scale", "statement": "E1/M1/E2_transition_strength_geom are non-negative, unchanged when eps (or k) is multiplied by a positive number, and are 0 whenever all tensor components of the transition vanish.", "quantifier": "all polarisations, k vectors, states", "why_tests_cant": "all vectors", "anchors": ["atomtoolkit/transition_strengths.py:E1_transition_strength_geom", "atomtoolkit/transition_strengths.py:M1_transition_strength_geom", "atomtoolkit/transition_strengths.py:E2_transition_strength_geom"]}
{"id": "C41", "title": "Transition frequency is the level difference", "statement": "t.freq is always |E1 - E2| of the current level energies, >= 0 and independent of the order of the levels, also for sub-levels.", "quantifier": "all states", "why_tests_cant": "all states", "anchors": ["atomtoolkit/atom.py:BaseTransition.freq_Hz"]}
{"id": "C42", "title": "A first-time constraint is honoured and nothing else moves", "statement": "Setting the frequency of a not yet constrained transition, one of whose levels is in no other constrained transition, makes t.freq equal to it, keeps every previously constrained transition at its value, moves no level but that one, and issues no warning.", "quantifier": "all histories of such calls, all graph shapes, all traversal orders", "why_tests_cant": "all histories and hash orders", "anchors": ["atomtoolkit/atom.py:Transition.set_frequency", "atomtoolkit/atom.py:Atom.enforce_consistency", "atomtoolkit/atom.py:Atom.add_transition"]}
{"id": "C43", "title": "Enforcing a forest of constraints satisfies all of them", "statement": "If the constrained transitions form a forest and no level is fixed yet, one enforce_consistency makes every constrained transition have its set frequency, for every traversal order.", "quantifier": "all forests, all traversal orders, all initial energies", "why_tests_cant": "all graphs and hash orders", "anchors": ["atomtoolkit/atom.py:Atom.enforce_consistency"]}
{"id": "C44", "title": "Re-tuning a constrained transition takes effect", "statement": "t.set_frequency(f) makes t.freq == f also when t was constrained before, and all other constraints keep holding, as long as the constraints contain no loop.", "quantifier": "all loop-free sets of constraints", "why_tests_cant": "needs constraint graphs with two or more edges", "anchors": ["atomtoolkit/atom.py:Transition.set_frequency", "atomtoolkit/atom.py:Atom.enforce_consistency"]}
{"id": "C45", "title": "Contradictory loops are reported", "statement": "If the constrained frequencies around a loop of transitions contradict each other, enforce_consistency warns.", "quantifier": "all graphs with loops, all traversal orders", "why_tests_cant": "all graphs", "anchors": ["atomtoolkit/atom.py:Atom.enforce_consistency"]}
{"id": "C46", "title": "Constraint propagation is exact in floating point", "statement": "Adding a further constraint to a loop-free set never warns about, nor moves, levels whose constraints are already satisfied, with IEEE binary64 arithmetic.", "quantifier": "all binary64 energies and frequencies", "why_tests_cant": "rounding errors occur for almost all values", "anchors": ["atomtoolkit/atom.py:Atom.enforce_consistency"]}
{"id": "C47", "title": "Setting a subtransition's frequency", "statement": "After sub.set_frequency(f) on a hyperfine or Zeeman transition of a so far unconstrained transition between unconstrained levels, sub.freq == f and the parent moved by the same amount, provided the sublevels are ordered like the parent levels.", "quantifier": "all histories, all sublevels", "why_tests_cant": "all states", "anchors": ["atomtoolkit/atom.py:HFTransition.set_frequency", "atomtoolkit/atom.py:ZTransition.set_frequency"]}
{"id": "C48", "title": "add_transition brings its levels along", "statement": "After atom.add_transition(t), both levels of t are in atom.levels.", "quantifier": "all transitions", "why_tests_cant": "levels not yet in the atom are never tested", "anchors": ["atomtoolkit/atom.py:Atom.add_transition"]}
{"id": "C49", "title": "Adding a transition twice is harmless", "statement": "atom.add_transition(t) for a t already in the atom changes nothing and does not raise.", "quantifier": "all states, including after subtransitions were computed", "why_tests_cant": "depends on laziness history", "anchors": ["atomtoolkit/atom.py:BaseTransition.add_to_atom", "atomtoolkit/atom.py:Atom.add_transition"]}
{"id": "C50", "title": "populate_transitions adds every allowed transition", "statement": "After atom.populate_transitions(allowed), for every pair of levels with an allowed transition type the atom has a transition, and no other transition was added.", "quantifier": "all atoms", "why_tests_cant": "marked TODO in the tests", "anchors": ["atomtoolkit/atom.py:Atom.populate_transitions"]}
{"id": "C51", "title": "Linked levels are the graph neighbours", "statement": "linked_levels(name) of a fine-structure level returns exactly the other levels that share a transition with it, each with that transition.", "quantifier": "all atoms and names", "why_tests_cant": "all graphs", "anchors": ["atomtoolkit/atom.py:Atom.linked_levels"]}
{"id": "C52", "title": "Branching ratios form a distribution over lower levels", "statement": "compute_branching_ratios(k) has exactly one entry per level reached by a transition whose upper level is k, every entry is the transition's share of the total A, entries are in [0,1] and sum to 1.", "quantifier": "all atoms whose transitions have A >= 0 with positive total", "why_tests_cant": "all graphs and coefficients", "anchors": ["atomtoolkit/atom.py:Atom.compute_branching_ratios"]}
{"id": "C53", "title": "Branching ratios do not depend on units", "statement": "Replacing a transition's A by the same quantity in another unit does not change any branching ratio.", "quantifier": "all unit assignments", "why_tests_cant": "all states", "anchors": ["atomtoolkit/atom.py:Atom.compute_branching_ratios", "atomtoolkit/atom.py:BaseTransition.compute_linewidth"]}
{"id": "C54", "title": "Decay goes downhill", "statement": "A level's branching ratios contain only levels that currently lie below it.", "quantifier": "all histories of level moves", "why_tests_cant": "history dependent", "anchors": ["atomtoolkit/atom.py:BaseTransition.__init__", "atomtoolkit/atom.py:Atom.compute_branching_ratios"]}
{"id": "C55", "title": "Missing A coefficients are reported as ValueError", "statement": "compute_branching_ratios raises ValueError when a transition from the level has no A.", "quantifier": "all atoms", "why_tests_cant": "untested branch", "anchors": ["atomtoolkit/atom.py:Atom.compute_branching_ratios"]}
{"id": "C56", "title": "Lifetimes add like rates", "statement": "1/state_lifetime(k) is the sum over transitions with upper level k of A/(2 pi); it is infinite exactly if that sum is zero, and adding a decay channel never lengthens it.", "quantifier": "all atoms", "why_tests_cant": "all graphs", "anchors": ["atomtoolkit/atom.py:Atom.state_lifetime"]}
{"id": "C57", "title": "Hyperfine CSV round-trips", "statement": "apply_hf_csv(atom, f) after generate_hf_csv(atom, f) leaves every hyperfine constant of every level unchanged.", "quantifier": "all atoms", "why_tests_cant": "all level names and constants", "anchors": ["atomtoolkit/IO.py:generate_hf_csv", "atomtoolkit/IO.py:apply_hf_csv"]}
{"id": "C58", "title": "Saved atoms can be loaded under the given name", "statement": "After atom.save(f), the file is f if f ends in '.atom' and f + '.atom' otherwise, so that Atom.load of that name finds it.", "quantifier": "all file names", "why_tests_cant": "all paths, including those with several dots", "anchors": ["atomtoolkit/atom.py:Atom.save"]}
{"id": "C59", "title": "NIST tables are cut at the ionisation limit", "statement": "_load_NIST_data keeps exactly the rows before the first 'Limit' row (all rows if there is none).", "quantifier": "all tables", "why_tests_cant": "tables without a limit row", "anchors": ["atomtoolkit/IO.py:_load_NIST_data"]}
{"id": "C60", "title": "Second configurations are reconstituted", "statement": "reconstitute_conf(c0, c1) puts the parenthesised terms of c1 in place of those of c0 and keeps the rest of c0; complete configurations are returned unchanged.", "quantifier": "all configuration strings of the documented shapes", "why_tests_cant": "infinitely many strings", "anchors": ["atomtoolkit/IO.py:_load_NIST_data.reconstitute_conf"]}
{"id": "C61", "title": "Lorentzian line shape", "statement": "lorentzian(x, x0, g, a) is a at x0, a/2 at x0 +- g/2, symmetric, between 0 and a, and strictly decreasing in |x-x0|.", "quantifier": "all real x, x0, g > 0, a > 0", "why_tests_cant": "all reals", "anchors": ["atomtoolkit/render/lineshapes.py:lorentzian"]}
{"id": "C62", "title": "Sideband count terminates", "statement": "Constructing a ModLorentzianLineShape terminates for every modulation depth, with the least n such that (depth/2)^n <= 0.01 n!.", "quantifier": "all depths >= 0", "why_tests_cant": "termination for every input", "anchors": ["atomtoolkit/render/lineshapes.py:ModLorentzianLineShape.__init__"]}
{"id": "C63", "title": "Bounding boxes contain what they bound", "statement": "Grotrian.bbox of a non-empty set of points contains every point, is padded by pad on both sides in x, and every anchor position 1-9 lies inside it.", "quantifier": "all point sets and paddings >= 0", "why_tests_cant": "all point sets", "anchors": ["atomtoolkit/render/grotrian.py:Grotrian.bbox", "atomtoolkit/render/grotrian.py:Grotrian.compute_arrow"]}
{"id": "C64", "title": "Zeeman diagrams fit the requested width", "statement": "Drawn with the default squeeze, the Zeeman sublevels of the largest-F level do not overlap and fill exactly the width W, for every I and J.", "quantifier": "all I, J, W, fill factors", "why_tests_cant": "all spins", "anchors": ["atomtoolkit/render/grotrian.py:Grotrian._compute_zlevel_row", "atomtoolkit/render/grotrian.py:Grotrian._process_level_kwargs"]}
{"id": "C65", "title": "squeeze sets the width of a hyperfine level", "statement": "With degeneracy widths, the F = squeeze hyperfine sublevel is drawn with width W.", "quantifier": "all I, J, squeeze, W", "why_tests_cant": "all spins", "anchors": ["atomtoolkit/render/grotrian.py:Grotrian._compute_hflevel_row", "atomtoolkit/render/grotrian.py:Grotrian._process_level_kwargs"]}
{"id": "C66", "title": "Geometric strengths are squared matrix elements", "statement": "For every real polarisation (and wave vector) and every pair of states the value of X_transition_strength_geom is the squared modulus of X_mel_geom, X = E1, M1, E2.", "quantifier": "all polarisations, wave vectors, spins and states", "why_tests_cant": "all reals and all spins", "anchors": ["atomtoolkit/transition_strengths.py:E1_mel_geom", "atomtoolkit/transition_strengths.py:E1_transition_strength_geom", "atomtoolkit/transition_strengths.py:M1_mel_geom", "atomtoolkit/transition_strengths.py:M1_transition_strength_geom", "atomtoolkit/transition_strengths.py:E2_mel_geom", "atomtoolkit/transition_strengths.py:E2_transition_strength_geom"]}
{"id": "C67", "title": "Every sublevel is drawn once", "statement": "The hyperfine (Zeeman) table of a gross level has exactly one line for each of its hyperfine (Zeeman) sublevels, in order, and one hidden row per enclosing level whose box contains those lines; building it changes no level.", "quantifier": "all atoms, levels and drawing options", "why_tests_cant": "all spins", "anchors": ["atomtoolkit/render/grotrian.py:Grotrian._hf_level_table", "atomtoolkit/render/grotrian.py:Grotrian._zeeman_level_table"]}
{"id": "C68", "title": "Realistic spacing is to scale", "statement": "With spacing 'realistic' a hyperfine line is hf_scale times its energy difference (in THz) from the gross level, and a Zeeman line z_scale times its Zeeman shift further; with both scales 1 every line is drawn at its energy.", "quantifier": "all atoms, levels and drawing options", "why_tests_cant": "all spins and constants", "anchors": ["atomtoolkit/render/grotrian.py:Grotrian._compute_hflevel_row", "atomtoolkit/render/grotrian.py:Grotrian._compute_zlevel_row"]}
{"id": "C69", "title": "Schematic spacing is uniform and centred", "statement": "With spacing 'schematic' hyperfine lines are equally spaced in order of F, symmetric about the gross level.", "quantifier": "all atoms, levels and drawing options", "why_tests_cant": "all spins and constants", "anchors": ["atomtoolkit/render/grotrian.py:Grotrian._compute_hflevel_row"]}
{"id": "C70", "title": "Arrows end at the most specific structure drawn", "statement": "The ends of a transition arrow lie in the bounding box of the lower and upper level if drawn, else of their hyperfine level, else of their gross level, shifted by the given offsets.", "quantifier": "all diagrams, transitions, anchors 1-9 and offsets", "why_tests_cant": "all diagrams", "anchors": ["atomtoolkit/render/grotrian.py:Grotrian.compute_arrow", "atomtoolkit/render/grotrian.py:Grotrian.render_levels"]}
{"id": "C71", "title": "override_bbox selects the structure an arrow is anchored to", "statement": "With override_bbox 'hf' ('gross') an end of an arrow lies in the box of the hyperfine (gross) level that its level belongs to.", "quantifier": "all diagrams and levels", "why_tests_cant": "all diagrams", "anchors": ["atomtoolkit/render/grotrian.py:Grotrian.compute_arrow"]}
{"id": "C72", "title": "Gaussian line shape", "statement": "gaussian(x, x0, s, a) is a at x0, a/2 exactly where |x-x0| = s sqrt(2 ln 2), symmetric, between 0 and a, and strictly decreasing in |x-x0|.", "quantifier": "all real x, x0, s > 0, a > 0", "why_tests_cant": "all reals", "anchors": ["atomtoolkit/render/lineshapes.py:gaussian"]}
{"id": "C73", "title": "fwhm is the full width at half maximum", "statement": "The fwhm attribute of a GaussianLineShape is the distance of its two half-maximum points, up to 0.11 percent.", "quantifier": "all sigma > 0", "why_tests_cant": "all reals", "anchors": ["atomtoolkit/render/lineshapes.py:GaussianLineShape.__init__"]}
{"id": "C74", "title": "Modulated line shapes", "statement": "The modulated Lorentzian is symmetric about x0, non-negative, at most the sum of its components' heights, at least each single sideband, and equal to the plain Lorentzian when there is no modulation.", "quantifier": "all widths, amplitudes >= 0, depths, frequencies and sideband counts", "why_tests_cant": "all reals and all counts", "anchors": ["atomtoolkit/render/lineshapes.py:mod_lorentzian", "atomtoolkit/render/lineshapes.py:ModLorentzianLineShape.shape_func"]}
{"id": "C75", "title": "The plotted window shows the line", "statement": "compute() samples equally spaced points, symmetric about x0, from end to end of a window that contains the half-maximum points of every line of the shape.", "quantifier": "all line shapes and parameters", "why_tests_cant": "all reals", "anchors": ["atomtoolkit/render/lineshapes.py:LineShape.compute", "atomtoolkit/render/lineshapes.py:LorentzianLineShape.width_func", "atomtoolkit/render/lineshapes.py:ModLorentzianLineShape.width_func", "atomtoolkit/render/lineshapes.py:GaussianLineShape.width_func", "atomtoolkit/render/lineshapes.py:ThermalGaussianLineShape.width_func"]}
{"id": "C76", "title": "The peak is plotted", "statement": "compute(x0, n) samples x0 itself, so that the highest plotted point is the amplitude.", "quantifier": "all n >= 2 and widths", "why_tests_cant": "all n", "anchors": ["atomtoolkit/render/lineshapes.py:LineShape.compute"]}
{"id": "C77", "title": "Thermal line shapes are defined", "statement": "A ThermalLineShape can be evaluated for every temperature, mass and laser linewidth >= 0 (the default linewidth of plot_spectrum is 0), and is the Lorentzian, Gaussian or Voigt profile according to the ratio of the widths.", "quantifier": "all temperatures, masses, linewidths and frequencies", "why_tests_cant": "division by zero for the default linewidth", "anchors": ["atomtoolkit/render/lineshapes.py:ThermalLineShape.shape_func", "atomtoolkit/render/spectra.py:plot_spectrum"]}
{"id": "C78", "title": "Natural linewidths are added the same way", "statement": "An unmodulated ModLorentzianLineShape draws the same curve as a LorentzianLineShape, with and without A_coeff.", "quantifier": "all widths, amplitudes and A coefficients", "why_tests_cant": "all reals", "anchors": ["atomtoolkit/render/lineshapes.py:LorentzianLineShape.shape_func", "atomtoolkit/render/lineshapes.py:ModLorentzianLineShape.shape_func"]}
{"id": "C79", "title": "Doppler width", "statement": "The sigma of a thermal line shape is the standard deviation sqrt(kT/(m c^2)) of the Doppler shift.", "quantifier": "all temperatures and masses", "why_tests_cant": "all reals", "anchors": ["atomtoolkit/render/lineshapes.py:ThermalGaussianLineShape.__init__", "atomtoolkit/render/lineshapes.py:ThermalLineShape.__init__"]}
{"id": "C80", "title": "Shades are colours", "statement": "Every line gets a lightness between 0.2 and 0.8, and of two lines of one colour the one with the larger shade property is lighter.", "quantifier": "all lists of lines and properties", "why_tests_cant": "all lists", "anchors": ["atomtoolkit/render/spectra.py:color_table_from_property"]}
{"id": "C81", "title": "The total is the sum of the lines", "statement": "The Total curve is at each plotted point the sum of the plotted line shapes.", "quantifier": "all lists of lines and sample points", "why_tests_cant": "all lists and reals", "anchors": ["atomtoolkit/render/spectra.py:plot_transitions"]}
{"id": "C82", "title": "Alternative J values become separate levels", "statement": "A table row whose J column lists alternatives ('j1 or j2 or j3' or 'j1,j2,j3') becomes one row for each alternative, in order, and no others.", "quantifier": "all lists of alternatives", "why_tests_cant": "any number of alternatives", "anchors": ["atomtoolkit/IO.py:_load_NIST_data"]}
{"id": "C83", "title": "csv files keep every string", "statement": "Rows written by generate_hf_csv are read by apply_hf_csv as the same list of rows with the same strings, whatever commas, quotes or line breaks the level names contain.", "quantifier": "all lists of non-empty rows of strings", "why_tests_cant": "infinitely many strings", "anchors": ["atomtoolkit/IO.py:generate_hf_csv", "atomtoolkit/IO.py:apply_hf_csv"]}
{"id": "C84", "title": "Every row of a level table becomes a level", "statement": "Atom.from_dataframe adds one level per row of the table, in order, with the row's energy, J, g-value and term, and each is found under its name.", "quantifier": "all tables, numbers of rows and spins", "why_tests_cant": "any number of rows with any symbols", "anchors": ["atomtoolkit/atom.py:Atom.from_dataframe", "atomtoolkit/atom.py:EnergyLevel.from_dataframe"]}
{"id": "C85", "title": "num_levels selects the first rows", "statement": "from_dataframe(df, num_levels=n) is from_dataframe of the first n rows, and of all rows when there are no more than n.", "quantifier": "all tables, n and atoms", "why_tests_cant": "all n", "anchors": ["atomtoolkit/atom.py:Atom.from_dataframe"]}
{"id": "C86", "title": "A loaded level is named after its first configuration", "statement": "The level made from a row is named by the configuration and term in its first columns, followed by J.", "quantifier": "all rows with any number of components", "why_tests_cant": "any percentages and symbols", "anchors": ["atomtoolkit/atom.py:EnergyLevel.from_dataframe", "atomtoolkit/atom.py:Term", "atomtoolkit/atom.py:MultiTerm"]}
{"id": "C87", "title": "Levels without a tabulated g-value can be used", "statement": "Every sublevel of a loaded level has an energy, whether or not the table lists its g-value.", "quantifier": "all constants, spins and fields", "why_tests_cant": "all reals", "anchors": ["atomtoolkit/atom.py:EnergyLevel.from_dataframe", "atomtoolkit/atom.py:EnergyLevel.__init__", "atomtoolkit/atom.py:ZeemanLevel"]}
{"id": "C88", "title": "Transition tables", "statement": "populate_transitions_df adds the rows between levels of the atom in order, passes over the others, leaves levels and names alone, and between two levels the last row counts.", "quantifier": "all tables and reachable atoms", "why_tests_cant": "any number of rows and any history", "anchors": ["atomtoolkit/atom.py:Atom.populate_transitions_df"]}
{"id": "C89", "title": "generate_full_from_dataframe returns an atom", "statement": "generate_full_from_dataframe returns an atom with the levels of the table, the requested transitions and a transition of every level to itself.", "quantifier": "all tables and options", "why_tests_cant": "any tables", "anchors": ["atomtoolkit/atom.py:Atom.generate_full_from_dataframe"]}
{"id": "C90", "title": "Internal transitions", "statement": "populate_internal_transitions gives every level exactly one transition to itself, in order, and changes nothing else.", "quantifier": "all reachable atoms", "why_tests_cant": "any history", "anchors": ["atomtoolkit/atom.py:Atom.populate_internal_transitions"]}
{"id": "C91", "title": "Cells are unwrapped", "statement": "A cell of a NIST table is reduced to the text inside its wrapping of blanks, equals signs, quotes and question marks, and a wrapped value comes out unchanged.", "quantifier": "all strings", "why_tests_cant": "infinitely many strings", "anchors": ["atomtoolkit/IO.py:_load_NIST_data"]}
{"id": "C92", "title": "Leading percentages are read as printed", "statement": "The percentages, second configuration and second term in a leading percentages cell become the corresponding columns.", "quantifier": "all numbers, configurations, terms and amounts of blanks", "why_tests_cant": "infinitely many cells", "anchors": ["atomtoolkit/IO.py:_load_NIST_data"]}
{"id": "C93", "title": "Levels are read from csv files", "statement": "load_level_data returns the energies printed in the level column of the file.", "quantifier": "all files and column choices", "why_tests_cant": "infinitely many cells", "anchors": ["atomtoolkit/IO.py:load_level_data"]}
{"id": "C94", "title": "Terms of jj-coupled second components", "statement": "A second component without a term gets the pair of J values named in its configuration.", "quantifier": "all tables, configurations and numbers of J values", "why_tests_cant": "any number of rows", "anchors": ["atomtoolkit/IO.py:_load_NIST_data"]}
{"id": "C95", "title": "Terms given among the percentages", "statement": "A row whose term is empty or a star gets the term printed after its first percentage; other rows keep theirs.", "quantifier": "all cells", "why_tests_cant": "infinitely many cells", "anchors": ["atomtoolkit/IO.py:_load_NIST_data"]}
{"id": "C96", "title": "The levels of an atom as a dict", "statement": "keys(), values() and len() of atom.levels agree: the n-th key is the name of the n-th value, a level of the atom, nothing occurs twice, and levels[key] is the value next to the key.", "quantifier": "all reachable atoms and keys", "why_tests_cant": "any history", "anchors": ["atomtoolkit/atom_helpers.py:LevelStructure.keys", "atomtoolkit/atom_helpers.py:LevelStructure.values", "atomtoolkit/atom_helpers.py:LevelStructure.__len__", "atomtoolkit/atom_helpers.py:LevelStructure.__getitem__"]}
{"id": "C97", "title": "The transitions of an atom as a dict", "statement": "keys(), values() and len() of atom.transitions agree: the n-th key names the ends of the n-th value, every pair of levels occurs once in one order, both ends are levels of the atom, and list_names hides exactly the transitions of a level to itself.", "quantifier": "all reachable atoms", "why_tests_cant": "any history", "anchors": ["atomtoolkit/atom_helpers.py:TransitionStructure.keys", "atomtoolkit/atom_helpers.py:TransitionStructure.values", "atomtoolkit/atom_helpers.py:TransitionStructure.list_names"]}
{"id": "C98", "title": "Slices of levels", "statement": "levels[a:b] lists the levels by energy between the two ranks, negative ranks counting from the end; levels[:k] and levels[k:] together are levels[:], levels[::-1] is the reverse, and a step skips that many ranks. The atom is unchanged.", "quantifier": "all reachable atoms, bounds and steps", "why_tests_cant": "all integers and any history", "anchors": ["atomtoolkit/atom_helpers.py:LevelStructure.__getitem__"]}
{"id": "C99", "title": "Assigning a level to a key", "statement": "levels[key] = level makes levels[key] that level until the key is given away, adds the level under its own name, leaves the other names and aliases alone; del levels[key] undoes it.", "quantifier": "all reachable atoms, keys, levels and later histories", "why_tests_cant": "any history", "anchors": ["atomtoolkit/atom_helpers.py:LevelStructure.__setitem__", "atomtoolkit/atom_helpers.py:LevelStructure.__delitem__", "atomtoolkit/atom.py:Atom.add_level"]}
{"id": "C100", "title": "Atoms made from lists", "statement": "Atom(levels=..., transitions=...) contains exactly the given levels, by name and alias, and the given transitions with their levels; of two with equal names the later counts.", "quantifier": "all lists of levels and transitions", "why_tests_cant": "lists of any length", "anchors": ["atomtoolkit/atom.py:Atom.__init__"]}
{"id": "C101", "title": "Percentages of a basis conversion", "statement": "The percentages that term_to_LS lists for an existing JJ, JK or LK coupled state add up to 100, up to the rounding of each entry.", "quantifier": "all core and outer angular momenta, couplings, J values and spellings of the state", "why_tests_cant": "infinitely many states and real square roots", "anchors": ["atomtoolkit/util.py:term_to_LS", "atomtoolkit/transition_strengths.py:JJ_to_LS", "atomtoolkit/transition_strengths.py:JK_to_LS", "atomtoolkit/transition_strengths.py:LK_to_LS"]}
{"id": "C102", "title": "Coupled states form a basis", "statement": "The expansions of JJ, JK and LK coupled states of the same J in LS states have norm 1 and are orthogonal for different states; conversely every LS state is an expansion in the coupled states.", "quantifier": "all angular momenta", "why_tests_cant": "infinitely many states", "anchors": ["atomtoolkit/transition_strengths.py:JJ_to_LS", "atomtoolkit/transition_strengths.py:JK_to_LS", "atomtoolkit/transition_strengths.py:LK_to_LS"]}
{"id": "C103", "title": "LS components exist", "statement": "Every component listed by term_to_LS is an LS term that the angular momenta allow, no term is listed twice, and an LS term is its own expansion.", "quantifier": "all states and J values", "why_tests_cant": "infinitely many states", "anchors": ["atomtoolkit/util.py:term_to_LS"]}
{"id": "C104", "title": "Impossible states are rejected", "statement": "term_to_LS does not return a result for coupled states whose angular momenta cannot add up.", "quantifier": "all states and J values", "why_tests_cant": "infinitely many states", "anchors": ["atomtoolkit/util.py:term_to_LS"]}
{"id": "C105", "title": "g-values of coupled levels", "statement": "The default g-value of a JJ, JK or LK coupled level lies between the g-values of its LS components.", "quantifier": "all terms", "why_tests_cant": "infinitely many terms", "anchors": ["atomtoolkit/atom.py:EnergyLevel.compute_gJ", "atomtoolkit/util.py:term_to_LS"]}
{"id": "C106", "title": "Sum rule of E2 lines", "statement": "The relative strengths of the hyperfine lines of an E2 transition add up to (2F+1)/(2J+1) over the lines of one sublevel and to 2I+1 in total; the same holds for Zeeman components with 1/(2F+1) and 1.", "quantifier": "all spins and all reachable atoms", "why_tests_cant": "all angular momenta and any history", "anchors": ["atomtoolkit/atom.py:HFTransition.compute_linewidth", "atomtoolkit/atom.py:ZTransition.compute_linewidth"]}
{"id": "C107", "title": "Intensity of a light field", "statement": "A LightField is accepted only with a unit polarization, and the energy flux of its electric field is the given intensity.", "quantifier": "all wave vectors, intensities and complex polarizations", "why_tests_cant": "real and complex inputs", "anchors": ["atomtoolkit/environment.py:LightField.__init__", "atomtoolkit/environment.py:LightField.E"]}
{"id": "C108", "title": "Light is a transverse wave", "statement": "Electric field, magnetic field and wave vector of a LightField are perpendicular, |B| = |E|/c for a unit wave vector, and the energy flows along the wave vector.", "quantifier": "all wave vectors, intensities and complex polarizations", "why_tests_cant": "real and complex inputs", "anchors": ["atomtoolkit/environment.py:LightField.B"]}
{"id": "C109", "title": "Gaussian beams", "statement": "A GaussianBeam can be made from a wave vector, power, polarization and waist; its width, phase and curvature are those of a Gaussian beam and the same power passes through every plane.", "quantifier": "all beams, positions and radii", "why_tests_cant": "real inputs", "anchors": ["atomtoolkit/environment.py:GaussianBeam"]}
{"id": "C110", "title": "Couplings refer to the same LS states", "statement": "The expansions of a JJ and of a JK coupled state with different core J are orthogonal.", "quantifier": "all angular momenta", "why_tests_cant": "infinitely many states", "anchors": ["atomtoolkit/transition_strengths.py:JJ_to_LS", "atomtoolkit/transition_strengths.py:JK_to_LS"]}
{"id": "C111", "title": "Matrix elements are unitary", "statement": "Summed over the projections of one level and the components q, the products of the T(k,q) matrix elements from two states of a hyperfine level vanish for different states and are the same for equal ones; summed over the projections of both levels, every component q has the same total strength.", "quantifier": "all angular momenta, ranks and states", "why_tests_cant": "infinitely many spins, real square roots", "anchors": ["atomtoolkit/transition_strengths.py:tkq_mel", "atomtoolkit/transition_strengths.py:tkq_transition_strength"]}
{"id": "C112", "title": "Total strength out of a state", "statement": "The strengths of all components out of a hyperfine state to all hyperfine levels of another level add up to the same total for every state of the first level.", "quantifier": "all spins, ranks and states", "why_tests_cant": "infinitely many spins", "anchors": ["atomtoolkit/transition_strengths.py:tkq_mel", "atomtoolkit/transition_strengths.py:tkq_transition_strength"]}
{"id": "C113", "title": "Signs of matrix elements", "statement": "Reversing all projections multiplies a T(k,q) matrix element by the sign (-1)^(F0+F1+k), and exchanging the two states with q reversed multiplies it by a positive factor that does not depend on the projections.", "quantifier": "all angular momenta, ranks and states", "why_tests_cant": "infinitely many spins", "anchors": ["atomtoolkit/transition_strengths.py:tkq_mel"]}
{"id": "C114", "title": "Polarisations and the quantisation axis", "statement": "Circular polarisation (1, i, 0) drives only M' = M + 1, (1, -i, 0) only M' = M - 1 and z only M' = M; turning the light about the z axis, or multiplying the polarisation by a complex number, does not change the size of a matrix element or a strength.", "quantifier": "all complex polarisations, wave vectors and states", "why_tests_cant": "real angles and complex vectors", "anchors": ["atomtoolkit/transition_strengths.py:E1_mel_geom", "atomtoolkit/transition_strengths.py:M1_mel_geom", "atomtoolkit/transition_strengths.py:E2_mel_geom", "atomtoolkit/transition_strengths.py:E1_transition_strength_geom"]}
{"id": "C115", "title": "Unpolarised atoms absorb every polarisation alike", "statement": "Summed over the states of both levels, the squared E1 and M1 matrix elements are the same for every polarisation.", "quantifier": "all complex polarisations and spins", "why_tests_cant": "complex vectors, all spins", "anchors": ["atomtoolkit/transition_strengths.py:E1_mel_geom", "atomtoolkit/transition_strengths.py:M1_mel_geom"]}
{"id": "C116", "title": "Letters that number terms are removed", "statement": "The term of a NIST row loses the lower-case letters in front of it and is otherwise unchanged.", "quantifier": "all term symbols and labels", "why_tests_cant": "infinitely many strings", "anchors": ["atomtoolkit/IO.py:_load_NIST_data"]}
{"id": "C117", "title": "A hyperfine spectrum shows every line once", "statement": "plot_hyperfine_spectrum draws, for fine-structure transitions with lines, exactly one curve per hyperfine line, centred at the frequency of the line, with its relative strength as height and a label that tells the lines of one transition apart.", "quantifier": "all reachable atoms, transitions, lists of transitions and colorings", "why_tests_cant": "any history, any number of lines", "anchors": ["atomtoolkit/render/spectra.py:plot_hyperfine_spectrum", "atomtoolkit/render/spectra.py:plot_spectrum", "atomtoolkit/render/spectra.py:plot_transitions"]}
{"id": "C118", "title": "Spectra with default arguments", "statement": "plot_hyperfine_spectrum and plot_zeeman_spectrum draw the lines when called with the transitions only.", "quantifier": "all reachable atoms and transitions", "why_tests_cant": "any history", "anchors": ["atomtoolkit/render/spectra.py:plot_hyperfine_spectrum", "atomtoolkit/render/spectra.py:plot_zeeman_spectrum"]}
{"id": "C119", "title": "Spectra of single transitions and of lists", "statement": "plot_spectrum draws the lines of a single transition, or every transition of a list once, with distinct labels.", "quantifier": "all reachable atoms, transitions and arguments", "why_tests_cant": "any history", "anchors": ["atomtoolkit/render/spectra.py:plot_spectrum"]}
{"id": "C120", "title": "A Zeeman spectrum shows every line once", "statement": "plot_zeeman_spectrum draws every Zeeman line of the given transitions once, at its frequency and with its relative strength as height, with distinct labels, for every coloring.", "quantifier": "all reachable atoms, transitions and colorings", "why_tests_cant": "any history", "anchors": ["atomtoolkit/render/spectra.py:plot_zeeman_spectrum"]}
{"id": "C121", "title": "Heights in a spectrum", "statement": "The heights of the curves are proportional to the A coefficients of the lines, and add up to 2I+1 for an E1 or M1 multiplet; factors given by the user multiply them.", "quantifier": "all reachable atoms and transitions, all factors", "why_tests_cant": "any history and all spins", "anchors": ["atomtoolkit/render/spectra.py:plot_transitions", "atomtoolkit/atom.py:HFTransition.compute_linewidth"]}
{"id": "C122", "title": "A Term and a MultiTerm compare through the leading component", "statement": "A Term equals a MultiTerm exactly if it equals the term with the largest percentage, whichever stands on the left, and this is consistent with the comparison of two Terms.", "quantifier": "all terms and multi-terms", "why_tests_cant": "infinitely many terms and lengths", "anchors": ["atomtoolkit/term.py:Term.__eq__", "atomtoolkit/term.py:MultiTerm.__eq__"]}
{"id": "C123", "title": "Transition tables from files", "statement": "load_transition_data gives one row per line of the file with the cells of the columns named by the caller, accepts both names of the optional columns, raises KeyError exactly if a needed column is missing, and leaves the caller's dictionary alone.", "quantifier": "all files and all column dictionaries", "why_tests_cant": "any number of rows and columns", "anchors": ["atomtoolkit/IO.py:load_transition_data"]}
{"id": "C124", "title": "Frequencies in transition tables", "statement": "A frequency in a transition table is set on the transition of its row; a table without frequencies only adds transitions.", "quantifier": "all reachable atoms and all tables", "why_tests_cant": "any history, any number of rows", "anchors": ["atomtoolkit/atom.py:Atom.populate_transitions_df", "atomtoolkit/IO.py:load_transition_data", "atomtoolkit/atom.py:Atom.enforce_consistency"]}
{"id": "C125", "title": "A level is a dictionary of its sublevels", "statement": "len, keys, values, items, key in level and level[key] of a level of the atom agree: the keys are distinct, level[key] is the value of the item, there are min(2I,2J)+1 hyperfine or 2F+1 Zeeman sublevels, and key in level tells whether level[key] works.", "quantifier": "all reachable atoms, levels and keys", "why_tests_cant": "any history, all spins", "anchors": ["atomtoolkit/atom.py:BaseLevel.__len__", "atomtoolkit/atom.py:BaseLevel.__getitem__", "atomtoolkit/atom.py:BaseLevel.__iter__", "atomtoolkit/atom.py:BaseLevel.keys", "atomtoolkit/atom.py:BaseLevel.items"]}
{"id": "C126", "title": "A transition is a dictionary of its lines", "statement": "len, keys, values, items, key in transition and transition[key] of a transition agree: the keys are the names of the two sublevels of the line, and transition[key] is the value of the item.", "quantifier": "all reachable atoms, transitions and keys", "why_tests_cant": "any history, any number of lines", "anchors": ["atomtoolkit/atom.py:BaseTransition.__len__", "atomtoolkit/atom.py:BaseTransition.__getitem__", "atomtoolkit/atom.py:BaseTransition.keys", "atomtoolkit/atom.py:BaseTransition.items"]}
{"id": "C127", "title": "Deleted sublevels and lines are gone", "statement": "del level[key] and del transition[key] take away exactly that sublevel or line for good, for every key that is in the level or transition.", "quantifier": "all reachable atoms, levels, transitions and keys", "why_tests_cant": "any history", "anchors": ["atomtoolkit/atom.py:BaseLevel.__delitem__", "atomtoolkit/atom.py:BaseTransition.__delitem__"]}
{"id": "C128", "title": "A quick diagram shows every level once", "statement": "draw_levels draws one point per level of the atom, at its J and its energy in THz, under its name, and one line per pair of different levels joined by a transition; the same for the hyperfine and the Zeeman graph.", "quantifier": "all reachable atoms and all three plot types", "why_tests_cant": "any history", "anchors": ["atomtoolkit/render/grotrian.py:draw_levels"]}
{"id": "C129", "title": "Isotopes do not disturb each other", "statement": "In a program with several atoms every level has the sublevels, hyperfine shifts and Zeeman shifts of the nuclear spin and the magnetic field of its own atom, the graphs of an atom hold its own levels only, and an operation on one atom changes nothing of another.", "quantifier": "all programs with any number of atoms and levels", "why_tests_cant": "any history, any number of atoms", "anchors": ["atomtoolkit/atom.py:Atom.add_level", "atomtoolkit/atom.py:BaseLevel.add_to_atom", "atomtoolkit/atom.py:EnergyLevel.populate_sublevels", "atomtoolkit/atom.py:HFLevel.compute_hf_shift"]}
{"id": "C130", "title": "Lines are found under the names of their levels", "statement": "atom.transitions[(p, q)] with the names of two hyperfine or two Zeeman sublevels, in either order, is the line between these two sublevels, and KeyError if there is none.", "quantifier": "all reachable atoms and all pairs of sublevels", "why_tests_cant": "any history", "anchors": ["atomtoolkit/atom_helpers.py:TransitionStructure.__getitem__", "atomtoolkit/atom.py:BaseTransition.__getitem__"]}
{"id": "C131", "title": "A diagram shows what was added", "statement": "Grotrian.render draws, for every level added, the lines of the chosen strategy, each once, in the colour and line width given with the level, and one arrow per transition added.", "quantifier": "all diagrams with any number of levels and transitions, all keyword arguments", "why_tests_cant": "any number of levels", "anchors": ["atomtoolkit/render/grotrian.py:Grotrian.add_level", "atomtoolkit/render/grotrian.py:Grotrian.add_transition", "atomtoolkit/render/grotrian.py:Grotrian.render_levels"]}
{"id": "C132", "title": "Boxes of a diagram", "statement": "A level added with bbox rect or bracket gets one rectangle, or one left and one right bracket, that covers its bounding box, in the colour and line width given with that level.", "quantifier": "all diagrams and keyword arguments", "why_tests_cant": "any number of levels", "anchors": ["atomtoolkit/render/grotrian.py:Grotrian.render_levels"]}
{"id": "C133", "title": "A diagram can be drawn again", "statement": "Rendering a diagram a second time shows the levels and transitions as they are now.", "quantifier": "all diagrams, all histories between the two calls", "why_tests_cant": "any history", "anchors": ["atomtoolkit/render/grotrian.py:Grotrian.render", "atomtoolkit/render/grotrian.py:Grotrian.render_levels"]}
{"id": "C134", "title": "Looking at an atom does not change it", "statement": "Looking up levels, sublevels, transitions and lines, and asking for linked levels, lifetimes and branching ratios, changes nothing that can be observed: views, aliases, energies, frequencies and A coefficients stay the same, and a lookup that gave an object gives the same object again.", "quantifier": "all reachable atoms and all sequences of reading operations, of any length", "why_tests_cant": "reading makes sublevels and lines on the fly, so the order of reads could matter", "anchors": ["atomtoolkit/atom_helpers.py:LevelStructure.__getitem__", "atomtoolkit/atom_helpers.py:TransitionStructure.__getitem__", "atomtoolkit/atom.py:BaseLevel.__getitem__", "atomtoolkit/atom.py:BaseTransition.__getitem__", "atomtoolkit/atom.py:Atom.linked_levels"]}
{"id": "C135", "title": "Basis conversions do not depend on what was called before", "statement": "JJ_to_LS, JK_to_LS and LK_to_LS, the readable lists made from them and the g-values of levels give what a fresh program gives, whatever was called and done with the results before.", "quantifier": "all programs of calls and of writes to the returned arrays", "why_tests_cant": "the results are remembered by lru_cache and shared with every caller", "anchors": ["atomtoolkit/transition_strengths.py:JJ_to_LS", "atomtoolkit/transition_strengths.py:JK_to_LS", "atomtoolkit/transition_strengths.py:LK_to_LS", "atomtoolkit/util.py:readable_JJ_to_LS", "atomtoolkit/atom.py:EnergyLevel.compute_gJ"]}
{"id": "C136", "title": "A transition stays in the atom until it is deleted", "statement": "Two levels joined by a transition stay joined until the transition or one of the levels is deleted; deleting a level removes exactly its transitions, deleting a transition exactly that transition.", "quantifier": "all reachable atoms, all histories of any length", "why_tests_cant": "any history", "anchors": ["atomtoolkit/atom_helpers.py:TransitionStructure.__delitem__", "atomtoolkit/atom_helpers.py:TransitionStructure.__setitem__", "atomtoolkit/atom_helpers.py:LevelStructure.__delitem__", "atomtoolkit/atom.py:Atom.add_transition"]}
{"id": "C137", "title": "Setting a frequency concerns only linked levels", "statement": "Giving a transition or one of its lines a frequency, by set_frequency or by adding a transition with a frequency, changes no level (nor its sublevels) that is neither an end of the transition nor linked to it by a chain of transitions with set frequencies; it changes no other transition, and warns only about levels linked to it.", "quantifier": "all reachable atoms, transitions and frequencies, all numbers and all iteration orders of networkx", "why_tests_cant": "any number of levels and constraints, any history", "anchors": ["atomtoolkit/atom.py:Transition.set_frequency", "atomtoolkit/atom.py:HFTransition.set_frequency", "atomtoolkit/atom.py:ZTransition.set_frequency", "atomtoolkit/atom.py:Atom.enforce_consistency", "atomtoolkit/atom.py:Atom.add_transition"]}
{"id": "C138", "title": "Consistency can be enforced around a level or a transition", "statement": "enforce_consistency(x) with a level or a transition x, as documented, enforces the set frequencies in the part of the atom that contains x.", "quantifier": "all reachable atoms, levels and transitions", "why_tests_cant": "any history, any set frequencies", "anchors": ["atomtoolkit/atom.py:Atom.enforce_consistency", "atomtoolkit/atom.py:BaseLevel.__len__", "atomtoolkit/atom.py:BaseTransition.__len__"]}
{"id": "C139", "title": "Assigned sublevels and lines are found", "statement": "After level[key] = x or transition[key] = x, x is found under that key, all other sublevels or lines are found as before, and nothing else changes.", "quantifier": "all states of an atom, all levels, transitions and keys", "why_tests_cant": "any history, any number of sublevels", "anchors": ["atomtoolkit/atom.py:BaseLevel.__setitem__", "atomtoolkit/atom.py:BaseTransition.__setitem__", "atomtoolkit/atom.py:BaseLevel.__getitem__", "atomtoolkit/atom.py:BaseTransition.__getitem__"]}
{"id": "C140", "title": "A MultiTerm is the sequence of its components", "statement": "len, mt[i] with positive and negative indices, iteration, reversed, x in mt, mt.index(x, start, stop) and mt.count(x) agree with the list of the given terms sorted by decreasing percentage; x may be a Term or a MultiTerm.", "quantifier": "all lists of terms, all indices and bounds, everything looked for", "why_tests_cant": "any number of components", "anchors": ["atomtoolkit/term.py:MultiTerm.__getitem__", "atomtoolkit/term.py:MultiTerm.__len__", "atomtoolkit/term.py:MultiTerm.__eq__", "atomtoolkit/term.py:Term.__eq__"]}
{"id": "C141", "title": "Everything can be printed", "statement": "str and repr of terms, MultiTerms, levels, transitions, atoms and of the views atom.levels and atom.transitions never fail, change nothing, and what they say (names, energies, frequencies, numbers of levels, transitions and sublevels) is true.", "quantifier": "all reachable atoms, all their levels and transitions, all MultiTerms", "why_tests_cant": "any history", "anchors": ["atomtoolkit/term.py:MultiTerm.__repr__", "atomtoolkit/term.py:MultiTerm.__str__", "atomtoolkit/atom.py:BaseLevel.__repr__", "atomtoolkit/atom.py:BaseTransition.__repr__", "atomtoolkit/atom.py:Atom.__repr__", "atomtoolkit/atom_helpers.py:LevelStructure.__repr__", "atomtoolkit/atom_helpers.py:TransitionStructure.__repr__"]}
{"id": "C142", "title": "Set frequencies are met up to rounding", "statement": "On an atom none of whose constrained levels has been fixed yet and whose set frequencies form no loop, one enforce_consistency() in binary64 arithmetic succeeds without a warning, and every set frequency is read back with an error of at most 3 * 2^-53 of the larger of the two level energies, unless it overflows; levels in no constraint do not move.", "quantifier": "all reachable atoms with double-precision energies and frequencies, any number of constraints, all iteration orders of networkx", "why_tests_cant": "almost every value rounds; any number of levels", "anchors": ["atomtoolkit/atom.py:Atom.enforce_consistency", "atomtoolkit/atom.py:BaseTransition.freq_Hz"]}
{"id": "C143", "title": "Frequencies and energies in any spectroscopic unit", "statement": "A level energy or a transition frequency may be given as a frequency, wavelength, wavenumber or photon energy; reading it back in the same unit gives what was given, and t.wl times t.freq is the speed of light.", "quantifier": "all reachable atoms, all levels, sublevels, transitions and lines, all magnitudes", "why_tests_cant": "all magnitudes and units", "anchors": ["atomtoolkit/atom.py:BaseLevel.level", "atomtoolkit/atom.py:HFLevel.level", "atomtoolkit/atom.py:BaseTransition.wl", "atomtoolkit/atom.py:Transition.set_frequency", "atomtoolkit/atom.py:HFTransition.set_frequency", "atomtoolkit/atom.py:ZTransition.set_frequency", "atomtoolkit/__init__.py:ureg"]}
{"id": "C144", "title": "Decay of hyperfine and Zeeman levels", "statement": "Every hyperfine and Zeeman sublevel decays at the total rate of its level, and its decays divide between the lower levels as those of the level do.", "quantifier": "all reachable atoms, all E1 and M1 transitions and their lines, all nuclear spins and J", "why_tests_cant": "all quantum numbers", "anchors": ["atomtoolkit/atom.py:HFTransition.compute_linewidth", "atomtoolkit/atom.py:ZTransition.compute_linewidth", "atomtoolkit/atom.py:Atom.state_lifetime", "atomtoolkit/atom.py:Atom.compute_branching_ratios"]}
{"id": "C145", "title": "Aliases of transitions", "statement": "A transition given an alias, by t.alias = a, by the constructor or by add_transition(..., alias=a), is atom.transitions[a] until another transition gets the same alias, whatever else is done to the atom; giving an alias changes no other lookup.", "quantifier": "all histories, all transitions, all aliases and keys", "why_tests_cant": "all histories", "anchors": ["atomtoolkit/atom.py:BaseTransition.alias", "atomtoolkit/atom.py:Atom.add_transition", "atomtoolkit/atom_helpers.py:TransitionStructure.__getitem__"]}
{"id": "C146", "title": "Energies are set and manifolds moved up to rounding", "statement": "In binary64 arithmetic, after level.level = v a fine-structure level has exactly the energy v; a hyperfine or Zeeman level has it up to 13 * 2^-53 of the largest energy in its manifold; all other levels of the manifold move by the same amount up to such an error, and no other manifold moves.", "quantifier": "all reachable atoms with double-precision numbers, all levels and all doubles v, barring overflow", "why_tests_cant": "almost every value rounds; any history", "anchors": ["atomtoolkit/atom.py:BaseLevel.level", "atomtoolkit/atom.py:HFLevel.level", "atomtoolkit/atom.py:HFLevel.compute_hf_shift", "atomtoolkit/atom.py:ZLevel.level"]}
{"id": "C147", "title": "A call that fails changes nothing", "statement": "When a call on an atom, a level or a transition raises, the atom looks as it did before: the same levels, transitions, names and aliases, energies, frequencies, coefficients and warnings.", "quantifier": "all reachable atoms, all operations and arguments, all exceptions", "why_tests_cant": "every failure point of every operation in every history", "anchors": ["atomtoolkit/atom.py:BaseLevel.alias", "atomtoolkit/atom.py:BaseTransition.alias", "atomtoolkit/atom.py:Transition.set_frequency", "atomtoolkit/atom.py:Atom.add_transition", "atomtoolkit/atom.py:Atom.enforce_consistency", "atomtoolkit/atom.py:Atom.add_level", "atomtoolkit/atom.py:Atom.populate_transitions"]}
{"id": "C148", "title": "Branching ratios up to rounding", "statement": "In binary64 arithmetic every branching ratio lies between 0 and 1 and is the share of its A coefficient in the total, and the ratios add up to 1, up to 3 * n * 2^-53 for n decays; a level with one decay has the ratio 1 exactly. The total rate behind the lifetime is the sum of the rates up to (n - 1) roundings.", "quantifier": "all reachable atoms with double-precision non-negative A coefficients whose sum does not overflow, any number n of decays", "why_tests_cant": "almost every quotient rounds; any number of decays", "anchors": ["atomtoolkit/atom.py:Atom.compute_branching_ratios", "atomtoolkit/atom.py:Atom.state_lifetime"]}
{"id": "C149", "title": "The order of setting frequencies", "statement": "If the frequencies of some transitions are set one after the other, and each time one of the two levels is still in no constraint, then the same calls in another such order give the same atom.", "quantifier": "all reachable atoms whose constraints are met, all lists of transitions and non-negative frequencies, all pairs of orders of them, all iteration orders of Python sets", "why_tests_cant": "the orders are permutations of lists of any length over any graph of transitions", "anchors": ["atomtoolkit/atom.py:Transition.set_frequency", "atomtoolkit/atom.py:Atom.enforce_consistency"]}
{"id": "C150", "title": "The order of adding levels", "statement": "Adding the same levels to an atom in two different orders, and doing the same things to it afterwards, gives the same atom: every later call has the same outcome, and all lookups, energies, frequencies, sublevels, linked levels, lifetimes and branching ratios agree.", "quantifier": "all reachable atoms without set frequencies, all lists of levels with distinct names and aliases, all permutations of them, all later histories of calls, all number systems of the model", "why_tests_cant": "the orders are permutations of lists of any length, followed by histories of any length", "anchors": ["atomtoolkit/atom.py:Atom.add_level", "atomtoolkit/atom.py:EnergyLevel.add_to_atom", "atomtoolkit/atom_helpers.py:LevelStructure.__getitem__", "atomtoolkit/atom_helpers.py:TransitionStructure.__getitem__"]}
{"id": "C151", "title": "An alias is as good as a name", "statement": "The alias of a level can be used as a key wherever its name can: in levels and in keys of its sublevels, in add_transition, in transitions, in linked_levels, state_lifetime and compute_branching_ratios.", "quantifier": "all reachable atoms, all aliases that are not themselves names of levels, all number systems of the model", "why_tests_cant": "the atoms are reached by histories of any length, and aliases are arbitrary strings", "anchors": ["atomtoolkit/atom_helpers.py:LevelStructure.__getitem__", "atomtoolkit/atom_helpers.py:TransitionStructure.__getitem__", "atomtoolkit/atom.py:Atom.linked_levels", "atomtoolkit/atom.py:Atom.add_transition"]}
{"id": "C152", "title": "Split lines stay centred", "statement": "The hyperfine lines of a transition, each weighted with its relative strength, have the frequency of the transition as their mean, whatever the hyperfine constants; and so have the Zeeman lines of a hyperfine line, whatever the field, as long as no sublevel was given a quadratic shift.", "quantifier": "all reachable atoms, nuclear spins, energies, hyperfine constants and fields, all E1, M1 and E2 transitions with an A coefficient, exact arithmetic", "why_tests_cant": "all spins and rational constants; the lists of lines grow with the spins", "anchors": ["atomtoolkit/atom.py:Transition.populate_subtransitions", "atomtoolkit/atom.py:HFTransition.compute_linewidth", "atomtoolkit/atom.py:HFLevel.level_Hz", "atomtoolkit/atom.py:ZLevel.level_Hz"]}
{"id": "C153", "title": "The order of adding transitions", "statement": "Adding transitions between different pairs of levels to an atom makes exactly these joined and known by their aliases, changes nothing else, and works in any order: lookups, energies, frequencies, linked levels, total rates and branching ratios are then the same, whichever order was used.", "quantifier": "all reachable atoms, all lists of transitions without subtransitions and set frequencies between levels of the atom, no two over the same pair or with the same alias, all permutations of them, all number systems of the model (rates and ratios: exact arithmetic)", "why_tests_cant": "the orders are permutations of lists of any length over any graph", "anchors": ["atomtoolkit/atom.py:Atom.add_transition", "atomtoolkit/atom.py:Transition.add_to_atom", "atomtoolkit/atom.py:Atom.linked_levels", "atomtoolkit/atom.py:Atom.compute_branching_ratios", "atomtoolkit/atom.py:Atom.state_lifetime"]}
{"id": "C154", "title": "Constants and field act where they should", "statement": "Setting the hyperfine constants of a level, in any spectroscopic unit, changes these and moves only its own sublevels: a hyperfine level and its Zeeman sublevels by one amount, linear in the change, for hfA the textbook A K / 2. Setting the field moves Zeeman sublevels only, each by its moment times the change of the field plus its quadratic shift. No other energy, frequency, coefficient or lookup changes.", "quantifier": "all reachable atoms, levels, constants, fields, units and magnitudes; the locality for all number systems of the model, the amounts in exact arithmetic", "why_tests_cant": "all quantum numbers, magnitudes and histories", "anchors": ["atomtoolkit/atom.py:EnergyLevel.hfA", "atomtoolkit/atom.py:EnergyLevel.hfB", "atomtoolkit/atom.py:EnergyLevel.hfC", "atomtoolkit/atom.py:HFLevel.compute_hf_shift", "atomtoolkit/atom.py:ZLevel.shift_Hz", "atomtoolkit/atom.py:Atom.B"]}
{"id": "C155", "title": "Only differences of energies matter, in any unit", "statement": "Take a history of uses of the interface and write all its energies in another unit and from another origin, with frequencies, hyperfine constants, the field and the quadratic shifts to match. Then the same calls succeed or fail with the same exceptions, all energies and frequencies are the old ones on the new scale, and names, aliases, lookups (also by number), upper and lower levels, links, warnings, rates and branching ratios are the same. In particular the choice of the zero of energy changes no frequency.", "quantifier": "all histories of any length from an empty atom, all nuclear spins, fields and iteration orders of networkx, all units and origins, exact arithmetic", "why_tests_cant": "it relates pairs of runs of any length", "anchors": ["atomtoolkit/atom.py:EnergyLevel.level_Hz", "atomtoolkit/atom.py:HFLevel.level_Hz", "atomtoolkit/atom.py:ZLevel.level_Hz", "atomtoolkit/atom.py:BaseTransition.freq_Hz", "atomtoolkit/atom.py:Atom.enforce_consistency", "atomtoolkit/atom.py:Transition.set_frequency"]}
{"id": "C156", "title": "A coefficients are spectators", "statement": "Two sequences of uses of the interface that differ only in the A coefficients given to transitions, or in whether one is given, lead to the same levels, energies, frequencies, names, aliases, links and warnings, and every call except state_lifetime and compute_branching_ratios has the same result or exception; if in addition all A coefficients are multiplied by one nonzero number, total decay rates are multiplied by it and branching ratios do not change.", "quantifier": "all pairs of histories of any length that differ only in A coefficients, all spins, fields and iteration orders, any number arithmetic (for the scaling: exact arithmetic, every nonzero factor)", "why_tests_cant": "A test compares one pair of histories; that nothing else reads the A coefficients concerns every call after every history.", "anchors": ["atomtoolkit/atom.py: BaseTransition.__init__, compute_linewidth", "atomtoolkit/atom.py: Atom.state_lifetime", "atomtoolkit/atom.py: Atom.compute_branching_ratios"]}
{"id": "C157", "title": "The hash seed does not matter", "statement": "Running the same sequence of uses of the interface with other iteration orders of Python sets (another hash seed) gives the same atom, and every call has the same result or exception.", "quantifier": "all histories of any length, all pairs of iteration orders, chosen anew for every enforcement", "why_tests_cant": "A test process has one hash seed, and sets of a few strings often come out in one order.", "anchors": ["atomtoolkit/atom.py: Atom.enforce_consistency", "atomtoolkit/atom.py: Transition.set_frequency", "atomtoolkit/atom.py: Atom.add_transition"]}
{"id": "C158", "title": "The lowest level of a group stays", "statement": "When no level is fixed yet, enforcing all set frequencies at once leaves every level where it is that is strictly lower than all levels that constraints connect it with and is the upper level of no constraint; and if every group of constrained levels has such a level and the constraints form no loop, the atom afterwards is the same for every iteration order of components, levels and neighbours.", "quantifier": "all reachable atoms of any size with any set frequencies, all iteration orders, any number arithmetic (for the second part: exact arithmetic)", "why_tests_cant": "A test looks at one graph of constraints in one order of traversal.", "anchors": ["atomtoolkit/atom.py: Atom.enforce_consistency", "atomtoolkit/atom.py: EnergyLevel.level_Hz"]}
{"id": "C159", "title": "New frequencies on top of enforced ones", "statement": "If the set frequencies form no loop, one enforcement makes every transition have its set frequency, without a warning and without moving any level that was fixed before, also when some of the frequencies were enforced earlier and others are new.", "quantifier": "all reachable atoms of any size with any set frequencies without loops, any part of them enforced before, all iteration orders", "why_tests_cant": "A test looks at one graph of constraints, one history of enforcement and one order of traversal.", "anchors": ["atomtoolkit/atom.py: Atom.enforce_consistency", "atomtoolkit/atom.py: Transition.__init__"]}
{"id": "C160", "title": "A configuration script makes the atom it describes", "statement": "A script that, after an atom was generated, overrides the frequencies of existing transitions by their names, adds new transitions with A coefficients and sets their frequencies, runs to its end without an exception or a warning; afterwards every transition it names has the frequency and the A coefficient written in the script, whatever came later in the script, and all earlier constraints, A coefficients and all other levels are as before.", "quantifier": "all scripts of any length, all settled atoms with the levels and transitions they name, all iteration orders; in particular the scripts in species/", "why_tests_cant": "A test runs one script on one atom; that a later statement spoils no earlier one depends on all their orders and on the graph of transitions.", "anchors": ["species/Yb_II_171.py", "species/Yb_II_173.py", "species/Yb_II_174.py", "atomtoolkit/atom.py: Transition.set_frequency", "atomtoolkit/atom.py: Transition.add_to_atom", "atomtoolkit/atom.py: Atom.add_transition"]}
{"id": "C161", "title": "From tables to a configured atom", "statement": "A configuration file that makes an atom from the first rows of a table of levels, maybe a file of hyperfine constants, and a table of transitions, and then overrides and adds transitions, runs to its end if every row can be read, no two rows name the same level, and the tables have the levels and transitions it names; then every transition it names has the frequency and the A coefficient it gives, every other level the energy of its row, and every level the hyperfine constants of the last row of the file with its name.", "quantifier": "all tables and files of any length, all numbers of rows to read, all nuclear spins and fields, all scripts of any length, all iteration orders; in particular the configuration files in species/", "why_tests_cant": "A test runs one file on one set of tables; it depends on the tables in full, including rows no script mentions.", "anchors": ["species/Yb_II_171.py", "species/Yb_II_173.py", "species/Yb_II_174.py", "atomtoolkit/IO.py: generate_full_from_dataframe", "atomtoolkit/IO.py: apply_hf_csv", "atomtoolkit/atom.py: Transition.set_frequency"]}
{"id": "C162", "title": "The gross structure is the same for all isotopes and fields", "statement": "Two sequences of uses of the interface that name no sublevels, and differ only in the nuclear spin, the field, hyperfine constants, g-values and quadratic shifts and in when these are set, lead to the same levels, energies, transitions, frequencies, constraints, aliases and warnings, and every such call has the same result or exception afterwards, also lookups, total rates and branching ratios.", "quantifier": "all pairs of histories of any length without uses of sublevels that agree but for these quantities, all nuclear spins, constants, fields and iteration orders, any number arithmetic", "why_tests_cant": "A test compares two isotopes; that nothing of the gross structure reads the nuclear spin or the constants concerns every pair of histories.", "anchors": ["atomtoolkit/atom.py: Atom.add_level", "atomtoolkit/atom.py: Atom.add_transition", "atomtoolkit/atom.py: Transition.set_frequency", "atomtoolkit/atom.py: Atom.enforce_consistency", "atomtoolkit/atom.py: EnergyLevel.hfA", "atomtoolkit/atom.py: Atom.B"]}
