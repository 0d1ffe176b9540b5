{
 "claims": [
  {
   "property": "C01",
   "status": "proved",
   "theorems": [
    "C01_label_round_trip",
    "C01_labels_distinct"
   ],
   "note": "Half-integers as rationals; labels as strings."
  },
  {
   "property": "C02",
   "status": "partial",
   "theorems": [
    "C02_exact_labels_partial",
    "C02_refuted",
    "C02_fraction_partial",
    "C02_malformed_partial"
   ],
   "note": "False as stated: float_to_frac(0.3) is '0/2'. Proved: the label denotes the number exactly for the half-integers. Strings: frac_to_float reads a/b as the quotient and rejects malformed text."
  },
  {
   "property": "C03",
   "status": "partial",
   "theorems": [
    "C03_letter_round_trip",
    "C03_letter_back",
    "C03_let_to_l_rejects",
    "C03_l_to_let_range_partial",
    "C03_negative_refuted"
   ],
   "note": "False for L in -21..-1, which l_to_let accepts through negative indexing. Everything else proved, with the exact accepted range."
  },
  {
   "property": "C04",
   "status": "proved",
   "theorems": [
    "C04_LS",
    "C04_JK",
    "C04_LK",
    "C04_JJ",
    "C04_unknown",
    "C04_known"
   ],
   "note": "Also proved: symbols of two or more characters always get a scheme, shorter ones other than a bracket get none and no quantum numbers."
  },
  {
   "property": "C05",
   "status": "proved",
   "theorems": [
    "C05_LS_parses"
   ],
   "note": ""
  },
  {
   "property": "C06",
   "status": "partial",
   "theorems": [
    "C06_JK_electron",
    "C06_JK_terms",
    "C06_LK_electron",
    "C06_LK_terms",
    "C06_JJ_terms",
    "C06_JJ_long",
    "C06_JJ_bare",
    "C06_JJ_electron_partial",
    "C06_JJ_electron_spin_refuted"
   ],
   "note": "Proved for JK, LK and for JJ, with the two ancestor terms in the configuration or not. False for JJ with one outer electron: its spin is reported as 0; the other numbers are right."
  },
  {
   "property": "C07",
   "status": "proved",
   "theorems": [
    "C07_names_identify",
    "C07_names_split"
   ],
   "note": "For blank-free configurations and NIST-shaped symbols; an example shows the restriction is needed."
  },
  {
   "property": "C08",
   "status": "partial",
   "theorems": [
    "C08_default_terms_partial",
    "C08_given_partial",
    "C08_refuted"
   ],
   "note": "False: J, F and mF are not compared (6s 2S1/2 == 6s 2S3/2). Proved: what equality does decide, for terms built from their symbols and for terms with given quantum numbers."
  },
  {
   "property": "C09",
   "status": "partial",
   "theorems": [
    "C09_reflexive",
    "C09_symmetric_partial",
    "C09_transitive_partial",
    "C09_raises_iff_partial",
    "C09_exception_partial",
    "C09_refuted"
   ],
   "note": "False: comparing a longer with a shorter MultiTerm raises IndexError, the converse may be True. Proved: an equivalence between MultiTerms of equal length; raises exactly if the left one is longer."
  },
  {
   "property": "C10",
   "status": "proved",
   "theorems": [
    "C10_components",
    "C10_leading",
    "C10_empty",
    "C10_parity",
    "C10_copy",
    "C10_copy_component"
   ],
   "note": "Includes stability among equal percentages and the IndexError of an empty MultiTerm. make_term_copy keeps an already present F (stated in the theorem)."
  },
  {
   "property": "C11",
   "status": "partial",
   "theorems": [
    "C11_entries_partial",
    "C11_distinct_partial",
    "C11_refuted"
   ],
   "note": "False for equal percentages. Proved: complete exactly when percentages are distinct."
  },
  {
   "property": "C12",
   "status": "proved",
   "theorems": [
    "C12_F_sublevels"
   ],
   "note": ""
  },
  {
   "property": "C13",
   "status": "proved",
   "theorems": [
    "C13_mF_sublevels",
    "C13_count"
   ],
   "note": ""
  },
  {
   "property": "C14",
   "status": "proved",
   "theorems": [
    "C14_centre_of_gravity",
    "C14_mean_energy"
   ],
   "note": "Exact arithmetic; every I, J and all three constants."
  },
  {
   "property": "C15",
   "status": "proved",
   "theorems": [
    "C15_interval_rule"
   ],
   "note": "Exact arithmetic."
  },
  {
   "property": "C16",
   "status": "partial",
   "theorems": [
    "C16_stretched_partial",
    "C16_refuted",
    "C16_symmetric_partial"
   ],
   "note": "False for the octupole term: the code's denominator lacks the factor (2I-1), so the stretched shift is C*(2I-1) for every I, J >= 3/2. A and B terms proved."
  },
  {
   "property": "C17",
   "status": "proved",
   "theorems": [
    "C17_F_zero",
    "C17_no_nuclear_spin",
    "C17_stretched",
    "C17_weighted_sum"
   ],
   "note": ""
  },
  {
   "property": "C18",
   "status": "proved",
   "theorems": [
    "C18_equal_spacing",
    "C18_antisymmetric",
    "C18_sum_zero",
    "C18_zero_field"
   ],
   "note": "The quadratic coefficient is 0 except in the zero-field statement."
  },
  {
   "property": "C19",
   "status": "partial",
   "theorems": [
    "C19_scaled_partial",
    "C19_components_partial",
    "C19_refuted"
   ],
   "note": "False: the sum over components is weighted by percentages without dividing by 100, and 100 is the default. Proved: the value is the percentage times the textbook value; for several components the weighted sum with l, s of the leading one."
  },
  {
   "property": "C20",
   "status": "partial",
   "theorems": [
    "C20_finite_partial",
    "C20_value_partial",
    "C20_refuted",
    "C20_zero_field_refuted"
   ],
   "note": "False for J = 0 in atoms with I > 0 when no g-value is given: gJ is 0/0. Proved finite for J > 0 or with an explicit g-value. At zero field the Zeeman energies of such a level are nan as well."
  },
  {
   "property": "C21",
   "status": "proved",
   "theorems": [
    "C21_rigid"
   ],
   "note": "Exact arithmetic (float rounding idealised)."
  },
  {
   "property": "C22",
   "status": "partial",
   "theorems": [
    "C22_zeeman_shift_partial",
    "C22_linewidth_partial",
    "C22_frozen",
    "C22_order_refuted"
   ],
   "note": "False in general: sublevels and subtransitions that already exist keep the g-factor and linewidth they were created with (C22_frozen, C22_order_refuted). Proved for every history that assigns a g-factor or A coefficient only while nothing has been derived from it."
  },
  {
   "property": "C23",
   "status": "partial",
   "theorems": [
    "C23_same_object_partial",
    "C23_readd_refuted"
   ],
   "note": "Proved for every history that does not rename, delete, re-add or repopulate the level and does not rebind the keys. False in general: add_level(level, populate_sublevels=True) a second time replaces the sublevel objects."
  },
  {
   "property": "C24",
   "status": "partial",
   "theorems": [
    "C24_mJ_lookup_partial",
    "C24_nuclear_spin_refuted"
   ],
   "note": "False: with I = 1 and J = 3/2 levels['... mJ=1/2'] returns the F=3/2 sublevel. Proved: exactly when the lookup answers (I integral, I <= 2J, m a projection of J); level['mJ=m'] itself is refused for every I > 0."
  },
  {
   "property": "C25",
   "status": "proved",
   "theorems": [
    "C25_by_energy"
   ],
   "note": "Exact arithmetic for the order of energies. Negative and out-of-range indices included."
  },
  {
   "property": "C26",
   "status": "proved",
   "theorems": [
    "C26_additions",
    "C26_history"
   ],
   "note": "Additions alone give names in first-insertion order; for arbitrary histories the level of each name is proved, not the order (a transition may insert a bare node earlier)."
  },
  {
   "property": "C27",
   "status": "partial",
   "theorems": [
    "C27_deleted_partial",
    "C27_alias_refuted"
   ],
   "note": "False through an alias set before the deletion. Proved for every other key, and for the transitions."
  },
  {
   "property": "C28",
   "status": "proved",
   "theorems": [
    "C28_alias_stays",
    "C28_other_lookups"
   ],
   "note": "Level aliases; level must already be in the atom (otherwise the setter raises)."
  },
  {
   "property": "C29",
   "status": "partial",
   "theorems": [
    "C29_lookup_partial",
    "C29_refuted"
   ],
   "note": "False when the upper level was added before the lower one, or the energies are equal. Proved: both orders succeed exactly when the lower level's node was inserted first, otherwise both raise KeyError. Names without '=' that no alias shadows."
  },
  {
   "property": "C30",
   "status": "partial",
   "theorems": [
    "C30_rank_refuted",
    "C30_valid_ranks"
   ],
   "note": "False in every state: a key with a rank always raises; with two valid ranks it is TypeError."
  },
  {
   "property": "C31",
   "status": "partial",
   "theorems": [
    "C31_lookup_partial",
    "C31_refuted"
   ],
   "note": "False when both directions exist: the reversed pair is preferred. Proved: the exact lookup rule."
  },
  {
   "property": "C32",
   "status": "partial",
   "theorems": [
    "C32_marks",
    "C32_triangle_partial",
    "C32_refuted"
   ],
   "note": "False for J + J' < k (J=0 to J=0 is marked E1). Proved: the exact marks of every transition, and that they are the triangle rule when J + J' >= k."
  },
  {
   "property": "C33",
   "status": "proved",
   "theorems": [
    "C33_hyperfine_sound"
   ],
   "note": "Also proves that the 6j coefficient of every listed subtransition is non-zero."
  },
  {
   "property": "C34",
   "status": "partial",
   "theorems": [
    "C34_complete_partial",
    "C34_named_partial",
    "C34_refuted",
    "C34_overlap_refuted"
   ],
   "note": "False when M1 and E2 are both allowed (|F-F'| = 2 is skipped) and when the hyperfine structures of the two levels overlap in energy. Proved in all other cases; also without the energy condition up to short names."
  },
  {
   "property": "C35",
   "status": "partial",
   "theorems": [
    "C35_zeeman_sound",
    "C35_zeeman_complete_partial",
    "C35_refuted"
   ],
   "note": "Soundness proved in full. Completeness is false for M1 + E2 as in C34; proved otherwise."
  },
  {
   "property": "C36",
   "status": "partial",
   "theorems": [
    "C36_spins",
    "C36_sum_rule_partial",
    "C36_overlap_refuted"
   ],
   "note": "The sum rule of the numbers is proved for all spins (C36_spins). For the listed lines of an atom it is proved for the first listing of an E1/M1 transition with an A coefficient when the hyperfine structures of the two levels do not overlap; with overlap lines get lost (C36_overlap_refuted)."
  },
  {
   "property": "C37",
   "status": "partial",
   "theorems": [
    "C37_spins",
    "C37_sum_rule_partial",
    "C37_overlap_refuted"
   ],
   "note": "As C36: numbers for all F, F', mF; listed components when the Zeeman structures do not overlap; refuted when they do."
  },
  {
   "property": "C38",
   "status": "partial",
   "theorems": [
    "C38_rate",
    "C38_positive_partial",
    "C38_E1",
    "C38_mixed_refuted",
    "C38_zeeman_refuted"
   ],
   "note": "A_sub = A_parent * rel and rel >= 0 for every listed line; rel > 0 is characterised exactly, holds for every E1 parent, and fails for E2 lines of M1+E2 parents and for E2 Zeeman components (F used twice)."
  },
  {
   "property": "C39",
   "status": "partial",
   "theorems": [
    "C39_square",
    "C39_nonneg",
    "C39_forbidden",
    "C39_rank1_partial",
    "C39_vanish_refuted",
    "C39_exchange_partial",
    "C39_exchange_refuted"
   ],
   "note": "Square, sign and forbidden transitions for all arguments; zeros of rank one characterised exactly (two kinds of allowed transitions without strength, C39_vanish_refuted); exchange symmetry holds exactly if F = F' or the strength is 0, because of the factor 2*F1+2."
  },
  {
   "property": "C40",
   "status": "partial",
   "theorems": [
    "C40_array_refuted",
    "C40_E1_M1",
    "C40_scale",
    "C40_vanish_E1",
    "C40_average",
    "C40_E2_average",
    "C40_complex_refuted",
    "C40_E2_partial",
    "C40_E2_refuted"
   ],
   "note": "Arrays raise TypeError (lru_cache). For tuples: E1/M1 non-negative and vanishing proved for real polarisations, scaling for all, average = mean over x, y, z; complex polarisations can give negative strengths; E2 does not vanish with the tensor (operator precedence)."
  },
  {
   "property": "C41",
   "status": "proved",
   "theorems": [
    "C41_frequency",
    "C41_symmetric"
   ],
   "note": "Exact rational arithmetic; all reachable states, all levels."
  },
  {
   "property": "C42",
   "status": "proved",
   "theorems": [
    "C42_set_frequency",
    "C42_add_transition",
    "C42_history"
   ],
   "note": "Exact rational arithmetic. All states reached by any calls in which the constraints are met, and all histories of first-time settings at a level that is in no constraint; the set iteration order of Python is an arbitrary oracle."
  },
  {
   "property": "C43",
   "status": "proved",
   "theorems": [
    "C43_forest"
   ],
   "note": "Exact rational arithmetic. Any number of constraints forming any forest, none enforced before, whatever order Python's sets are enumerated in."
  },
  {
   "property": "C44",
   "status": "partial",
   "theorems": [
    "C44_upper_leaf_partial",
    "C44_chain_refuted",
    "C44_zero_refuted"
   ],
   "note": "Proved when the upper level is in no other constraint and the old frequency is not 0. False otherwise: retuning the lower step of a chain, or a transition set to 0 before, leaves the old energies and only warns (witnesses)."
  },
  {
   "property": "C45",
   "status": "partial",
   "theorems": [
    "C45_never_warns_refuted",
    "C45_order_refuted"
   ],
   "note": "False: from unfixed levels no contradiction is ever reported, and for transitions added one at a time a warning depends on the order in which Python enumerates a set (witnesses)."
  },
  {
   "property": "C46",
   "status": "partial",
   "theorems": [
    "C46_warns_refuted",
    "C46_moves_refuted",
    "C46_integers_partial",
    "C46_history_partial"
   ],
   "note": "False for binary64 in general: 0.1 and 0.2 give a spurious warning, 0.1 and 1000 a silent move of a level. Proved for integer energies and frequencies whose sum stays below 2^52, for all histories of first-time settings."
  },
  {
   "property": "C47",
   "status": "proved",
   "theorems": [
    "C47_subtransition"
   ],
   "note": "Exact rational arithmetic; sub-transitions at both depths, fields and hyperfine constants arbitrary."
  },
  {
   "property": "C48",
   "status": "partial",
   "theorems": [
    "C48_levels_partial",
    "C48_refuted"
   ],
   "note": "False for levels that were not in the atom. Proved: add_transition never changes the set of levels."
  },
  {
   "property": "C49",
   "status": "partial",
   "theorems": [
    "C49_again_partial",
    "C49_refuted"
   ],
   "note": "False once subtransitions were computed (AttributeError). Proved: otherwise nothing changes, for transitions whose frequency was not fixed."
  },
  {
   "property": "C50",
   "status": "partial",
   "theorems": [
    "C50_always_refuted",
    "C50_nothing_added_partial",
    "C50_refuted"
   ],
   "note": "False: it never adds anything and raises KeyError at the first missing pair. Proved: the transitions between levels are unchanged."
  },
  {
   "property": "C51",
   "status": "proved",
   "theorems": [
    "C51_linked"
   ],
   "note": "Names without '=' that no alias shadows."
  },
  {
   "property": "C52",
   "status": "partial",
   "theorems": [
    "C52_ratios_partial",
    "C52_units_refuted"
   ],
   "note": "Proved for A coefficients in any mixture of units, in exact arithmetic, when the sum of the magnitudes is not zero: each ratio is the magnitude over the sum of the magnitudes. False as a share of the total rate when the units differ (C52_units_refuted). With a zero sum every ratio is nan (C148_zero, in doubles)."
  },
  {
   "property": "C53",
   "status": "partial",
   "theorems": [
    "C53_constructor",
    "C53_assign_refuted"
   ],
   "note": "True of an A given to the Transition constructor or to add_transition, which convert it to Hz. False for assignment t.A = value, which stores the unit as given: C53_assign_refuted."
  },
  {
   "property": "C54",
   "status": "partial",
   "theorems": [
    "C54_downhill_partial",
    "C54_moved_refuted",
    "C54_equal_refuted"
   ],
   "note": "Proved, not strictly, for histories that move no level and give no frequency. Refuted after a level has been moved past another one, and for strictness when two levels have the same energy."
  },
  {
   "property": "C55",
   "status": "partial",
   "theorems": [
    "C55_missing_refuted"
   ],
   "note": "The code raises AttributeError from the missing coefficient before it can raise the ValueError it documents: C55_missing_refuted."
  },
  {
   "property": "C56",
   "status": "proved",
   "theorems": [
    "C56_rates",
    "C56_missing",
    "C56_channel"
   ],
   "note": "C56_rates and C56_missing hold for keys of levels of all kinds, C56_channel for names of EnergyLevels and new transitions with A >= 0. Exact sums; the division by 2 pi is over the reals."
  },
  {
   "property": "C57",
   "status": "partial",
   "theorems": [
    "C57_csv",
    "C57_rows",
    "C57_torn_refuted",
    "C57_unknown_refuted",
    "C57_partial",
    "C57_refuted"
   ],
   "note": "Holds when no level's name is the alias of another level and no level name contains '='; C57_csv also says what def_A and blank do. Refuted with an alias equal to another level's name: its constants are overwritten by those of the other level. str and Q_ of a quantity are parameters with parse(show v) = v. Also false: an unreadable constant ends the call with the level half changed, and a row for an unknown level is passed over only if its constants can be read."
  },
  {
   "property": "C58",
   "status": "partial",
   "theorems": [
    "C58_partial",
    "C58_refuted"
   ],
   "note": "Holds for names with at most one dot. Refuted for every path starting with './' (a second .atom is appended) and for names such as x.atom.bak."
  },
  {
   "property": "C59",
   "status": "partial",
   "theorems": [
    "C59_partial",
    "C59_refuted"
   ],
   "note": "Holds for every table with a Limit row. Refuted for every table without: the whole table is dropped (or ValueError if no row has a level)."
  },
  {
   "property": "C60",
   "status": "partial",
   "theorems": [
    "C60_partial",
    "C60_refuted"
   ],
   "note": "Exact result for terms only, missing beginning and complete configurations. Refuted for a configuration with two adjacent terms lacking its beginning. Replacement fields other than {} are not modelled."
  },
  {
   "property": "C61",
   "status": "proved",
   "theorems": [
    "C61_lorentzian"
   ],
   "note": "Over the reals. The half-maximum condition is an equivalence."
  },
  {
   "property": "C62",
   "status": "partial",
   "theorems": [
    "C62_partial",
    "C62_in_range_partial",
    "C62_refuted"
   ],
   "note": "Exact arithmetic: terminates with the least n for every depth. With the float range: holds for 0 <= depth <= 100, refuted from depth 200 on, where the power overflows and the constructor raises OverflowError. Rounding is not modelled."
  },
  {
   "property": "C63",
   "status": "proved",
   "theorems": [
    "C63_bounds",
    "C63_defined",
    "C63_anchors"
   ],
   "note": "Exact rational coordinates."
  },
  {
   "property": "C64",
   "status": "partial",
   "theorems": [
    "C64_partial",
    "C64_odd_refuted",
    "C64_single_refuted",
    "C64_default_partial"
   ],
   "note": "Proved for integer F = I + J > 0. Refuted for every half-integer F >= 3/2 (the lines are wider than W) and for F = 0, 1/2, where the default options raise ZeroDivisionError."
  },
  {
   "property": "C65",
   "status": "partial",
   "theorems": [
    "C65_partial",
    "C65_refuted"
   ],
   "note": "The width is never W: it is W (2F+1)/(4F+3), since the code uses twice 2F+1 in the denominator. Proved: widths are as 2F+1."
  },
  {
   "property": "C66",
   "status": "partial",
   "theorems": [
    "C66_E1_M1",
    "C66_E2_refuted",
    "C66_E2_partial"
   ],
   "note": "Proved for E1 and M1; refuted for E2."
  },
  {
   "property": "C67",
   "status": "proved",
   "theorems": [
    "C67_hyperfine",
    "C67_zeeman"
   ],
   "note": "squeeze other than False; for Zeeman tables a squeeze that gives no division by zero."
  },
  {
   "property": "C68",
   "status": "proved",
   "theorems": [
    "C68_hyperfine",
    "C68_default_hyperfine",
    "C68_zeeman",
    "C68_default_zeeman"
   ],
   "note": "squeeze other than False; for Zeeman tables a squeeze that gives no division by zero."
  },
  {
   "property": "C69",
   "status": "partial",
   "theorems": [
    "C69_partial",
    "C69_refuted"
   ],
   "note": "Equally spaced; not centred: the middle of the outermost lines is half a step too low."
  },
  {
   "property": "C70",
   "status": "proved",
   "theorems": [
    "C70_position",
    "C70_arrow"
   ],
   "note": "Diagrams of any prompts with paddings >= 0; integer anchors."
  },
  {
   "property": "C71",
   "status": "partial",
   "theorems": [
    "C71_partial",
    "C71_refuted",
    "C71_keyword_refuted"
   ],
   "note": "Proved for 'hf' on Zeeman and 'gross' on hyperfine levels. 'gross' on a Zeeman level is ignored whenever the hyperfine level has a row. C71_keyword_refuted: the keyword is passed on to matplotlib's arrow, which refuses it, so that a diagram with override_bbox is never drawn."
  },
  {
   "property": "C72",
   "status": "proved",
   "theorems": [
    "C72_gaussian"
   ],
   "note": "Over the reals."
  },
  {
   "property": "C73",
   "status": "proved",
   "theorems": [
    "C73_fwhm"
   ],
   "note": "Over the reals; ln 2 bounded by 1 + t <= exp t."
  },
  {
   "property": "C74",
   "status": "proved",
   "theorems": [
    "C74_modulated"
   ],
   "note": "Bessel functions are a parameter; the last part assumes J_0 = 1 and J_i = 0 at the given depth, which holds at depth 0."
  },
  {
   "property": "C75",
   "status": "partial",
   "theorems": [
    "C75_samples",
    "C75_partial",
    "C75_thermal_refuted"
   ],
   "note": "Samples and windows proved for the Lorentzian (padding >= 1/2), modulated Lorentzian and Gaussian (padding >= 2; default 20). Refuted for thermal shapes: the window uses the relative width, so at x0 >= 40 no plotted point is below 7/8 of the peak."
  },
  {
   "property": "C76",
   "status": "partial",
   "theorems": [
    "C76_partial",
    "C76_refuted",
    "C76_default"
   ],
   "note": "Holds for odd n; never for even n, such as the default 1000. There the highest point of a Lorentzian is within 0.17 percent of the amplitude."
  },
  {
   "property": "C77",
   "status": "partial",
   "theorems": [
    "C77_partial",
    "C77_refuted"
   ],
   "note": "Proved for non-zero widths; with linewidth 0, the default of plot_spectrum, ZeroDivisionError. The Voigt profile is a parameter."
  },
  {
   "property": "C78",
   "status": "partial",
   "theorems": [
    "C78_partial",
    "C78_refuted"
   ],
   "note": "Holds without A_coeff; with A_coeff > 0 the two curves differ at every x other than x0."
  },
  {
   "property": "C79",
   "status": "partial",
   "theorems": [
    "C79_refuted"
   ],
   "note": "False: sigma is sqrt 8 times the standard deviation."
  },
  {
   "property": "C80",
   "status": "partial",
   "theorems": [
    "C80_partial",
    "C80_refuted"
   ],
   "note": "Lower bound and order always; the upper bound if the shades of a colour have no gaps. With gaps the lightness can exceed 1."
  },
  {
   "property": "C81",
   "status": "partial",
   "theorems": [
    "C81_partial",
    "C81_refuted"
   ],
   "note": "At least every curve, and the exact sum where all curves are sampled. Refuted outside the window of a line, which contributes its edge value 1/1601 at any distance."
  },
  {
   "property": "C82",
   "status": "proved",
   "theorems": [
    "C82_explode"
   ],
   "note": "Alternatives after ' or' keep the leading space, which Python's Fraction/float parsing strips."
  },
  {
   "property": "C83",
   "status": "proved",
   "theorems": [
    "C83_csv"
   ],
   "note": "Model of Python's csv writer and reader (excel dialect) for all strings."
  },
  {
   "property": "C84",
   "status": "partial",
   "theorems": [
    "C84_loaded",
    "C84_partial",
    "C84_unreadable",
    "C84_refuted"
   ],
   "note": "Exact content for all readable tables (C84_loaded); holds when names are different. Refuted for two rows of the same name: the second takes the place of the first. A row that cannot be read is skipped if it raises KeyError and ends the loading otherwise (C84_unreadable)."
  },
  {
   "property": "C85",
   "status": "proved",
   "theorems": [
    "C85_first",
    "C85_all"
   ],
   "note": ""
  },
  {
   "property": "C86",
   "status": "partial",
   "theorems": [
    "C86_largest",
    "C86_partial",
    "C86_refuted"
   ],
   "note": "The name is that of a component of largest percentage; of the first if its percentage is largest. Refuted when a later component has a larger percentage."
  },
  {
   "property": "C87",
   "status": "partial",
   "theorems": [
    "C87_partial",
    "C87_refuted"
   ],
   "note": "Holds when the table has a g-value. Refuted without: every Zeeman sublevel with F > 0 is nan."
  },
  {
   "property": "C88",
   "status": "partial",
   "theorems": [
    "C88_loaded",
    "C88_missing",
    "C88_last",
    "C88_refuted"
   ],
   "note": "Holds for rows whose J values are read as numbers. Refuted for every row with a half-integer J such as '1/2': ValueError."
  },
  {
   "property": "C89",
   "status": "partial",
   "theorems": [
    "C89_partial",
    "C89_refuted"
   ],
   "note": "Holds with a transition table. Refuted with transitions_df given by rules (see C50): KeyError."
  },
  {
   "property": "C90",
   "status": "proved",
   "theorems": [
    "C90_internal"
   ],
   "note": ""
  },
  {
   "property": "C91",
   "status": "partial",
   "theorems": [
    "C91_inside",
    "C91_partial",
    "C91_wrapped_partial",
    "C91_refuted"
   ],
   "note": "Every cell is its cleaned text inside wrapping; a wrapped value is returned unchanged if it has no such character at its ends. Refuted for values ending in a question mark."
  },
  {
   "property": "C92",
   "status": "partial",
   "theorems": [
    "C92_partial",
    "C92_numbers_partial",
    "C92_one_refuted",
    "C92_blank_refuted"
   ],
   "note": "Exact for two-component cells with a blank-free configuration and term. Refuted for every cell without a colon (percentage 100 is used) and for a single blank before the colon."
  },
  {
   "property": "C93",
   "status": "partial",
   "theorems": [
    "C93_default_refuted",
    "C93_partial",
    "C93_sign_refuted"
   ],
   "note": "Holds for unsigned numbers with anything but digits, points and signs around them. Refuted: without columns every file raises KeyError, and signs are lost as soon as one cell is not a bare number. pandas parsing of cells that are already numbers is not modelled."
  },
  {
   "property": "C94",
   "status": "partial",
   "theorems": [
    "C94_partial",
    "C94_kept",
    "C94_refuted"
   ],
   "note": "Holds when every configuration without a term names two J values. Refuted: one configuration with fewer leaves all these terms empty."
  },
  {
   "property": "C95",
   "status": "partial",
   "theorems": [
    "C95_partial",
    "C95_kept",
    "C95_refuted"
   ],
   "note": "Exact for two-component cells. Refuted for one component and for a colon next to the term."
  },
  {
   "property": "C96",
   "status": "partial",
   "theorems": [
    "C96_views",
    "C96_lookup_partial",
    "C96_refuted"
   ],
   "note": "Names without an equals sign that are no aliases. Refuted: an alias equal to the name of another level hides that level."
  },
  {
   "property": "C97",
   "status": "partial",
   "theorems": [
    "C97_views",
    "C97_names",
    "C97_refuted",
    "C97_append"
   ],
   "note": "Keys, values and names agree. Refuted: the ends need not be levels of the atom."
  },
  {
   "property": "C98",
   "status": "proved",
   "theorems": [
    "C98_all",
    "C98_part",
    "C98_cut",
    "C98_back",
    "C98_step",
    "C98_down",
    "C98_zero"
   ],
   "note": "Exact rational energies; bounds and steps are arbitrary integers."
  },
  {
   "property": "C99",
   "status": "partial",
   "theorems": [
    "C99_partial",
    "C99_append",
    "C99_delete_refuted"
   ],
   "note": "Refuted for del: the key of the assignment is an alias, and removing the node of that name fails."
  },
  {
   "property": "C100",
   "status": "partial",
   "theorems": [
    "C100_partial",
    "C100_refuted"
   ],
   "note": "Transitions between levels without a set frequency and without transitions of sublevels. Refuted: the levels of a transition are not added with it."
  },
  {
   "property": "C101",
   "status": "partial",
   "theorems": [
    "C101_JK",
    "C101_LK",
    "C101_JJ_terms",
    "C101_JJ_electron_refuted"
   ],
   "note": "Refuted for a JJ state with a single outer electron written nl<jo>: its spin is read as 0 and the list is empty."
  },
  {
   "property": "C102",
   "status": "proved",
   "theorems": [
    "C102_JJ",
    "C102_JK",
    "C102_LK",
    "C102_JJ_complete",
    "C102_LK_complete",
    "C102_JK_complete"
   ],
   "note": "Amplitudes are real numbers; Wigner symbols by the Racah formula."
  },
  {
   "property": "C103",
   "status": "proved",
   "theorems": [
    "C103_JK",
    "C103_LK",
    "C103_JJ_terms",
    "C103_LS"
   ],
   "note": "For JJ states the outer part is a term in brackets (see C101 for the other case)."
  },
  {
   "property": "C104",
   "status": "partial",
   "theorems": [
    "C104_JJ_refuted",
    "C104_JK_refuted",
    "C104_missing_partial"
   ],
   "note": "Refuted: impossible JJ states give an empty list, JK states of the wrong kind of J a list of nan."
  },
  {
   "property": "C105",
   "status": "partial",
   "theorems": [
    "C105_pure_partial",
    "C105_mixture_refuted"
   ],
   "note": "Proved up to the sign for LK levels of a single LS term. Refuted in general: amplitudes instead of their squares are the weights."
  },
  {
   "property": "C106",
   "status": "partial",
   "theorems": [
    "C106_spins",
    "C106_hyperfine_partial",
    "C106_zeeman_refuted"
   ],
   "note": "Hyperfine lines of transitions that are E2 only, if no sublevel of the one level is between two of the other. Refuted for Zeeman components: F1 is used twice."
  },
  {
   "property": "C107",
   "status": "partial",
   "theorems": [
    "C107_partial",
    "C107_short_refuted"
   ],
   "note": "Proved: longer vectors are rejected, unit vectors give the intensity. Refuted: shorter vectors, even zero, are accepted."
  },
  {
   "property": "C108",
   "status": "partial",
   "theorems": [
    "C108_perpendicular",
    "C108_wave_partial",
    "C108_longitudinal_refuted"
   ],
   "note": "The size of B and the energy flow for real unit wave vectors perpendicular to a unit polarization. Refuted: a polarization along the wave vector is accepted, even by default."
  },
  {
   "property": "C109",
   "status": "partial",
   "theorems": [
    "C109_refuted",
    "C109_width_partial",
    "C109_phase_partial",
    "C109_power_partial",
    "C109_magnetic_refuted",
    "C109_focus_refuted"
   ],
   "note": "Refuted: the constructor always raises (TypeError). Refuted: B lies along the beam. Refuted: at the focus the components of E are proportional to the squares of those of the polarization. Width, phase, radius and power are proved of the formulas of the methods."
  },
  {
   "property": "C110",
   "status": "partial",
   "theorems": [
    "C110_refuted"
   ],
   "note": "Refuted: JK_to_LS lacks the phase (-1)^(L + sc - K) of exchanging sc and L, so the relative signs of components with different L differ from those of JJ_to_LS."
  },
  {
   "property": "C111",
   "status": "proved",
   "theorems": [
    "C111_component",
    "C111_orthogonal",
    "C111_isotropic",
    "C111_into"
   ],
   "note": "For every rank k, all half-integer spins, all pairs of states and all components."
  },
  {
   "property": "C112",
   "status": "partial",
   "theorems": [
    "C112_refuted",
    "C112_corrected_partial"
   ],
   "note": "Refuted: the matrix element has the factor sqrt(2F+2) in place of sqrt(2F+1), so the totals depend on F (2/3 against 7/9). Proved for the corrected factor."
  },
  {
   "property": "C113",
   "status": "proved",
   "theorems": [
    "C113_reversed",
    "C113_exchanged"
   ],
   "note": "Reversal has the sign (-1)^(F0+F1+k). Exchanging the states has no sign but changes the factors, as the reduced element is not symmetric."
  },
  {
   "property": "C114",
   "status": "partial",
   "theorems": [
    "C114_components",
    "C114_circular",
    "C114_turned",
    "C114_phase",
    "C114_strength_refuted",
    "C114_E2_refuted"
   ],
   "note": "Proved for E1 and M1 matrix elements. Refuted for strengths, which are 0 for circular light, and for E2 elements, where a sum stands in place of a product."
  },
  {
   "property": "C115",
   "status": "proved",
   "theorems": [
    "C115_isotropic"
   ],
   "note": "All complex polarisations."
  },
  {
   "property": "C116",
   "status": "proved",
   "theorems": [
    "C116_labels"
   ],
   "note": "Terms in which no other lower-case letter stands before a blank."
  },
  {
   "property": "C117",
   "status": "partial",
   "theorems": [
    "C117_lines_partial",
    "C117_labels_partial",
    "C117_empty_refuted",
    "C117_colouring_refuted"
   ],
   "note": "Proved for colorings 'l' and 'u' with a line-shape object. Refuted for other colorings (NameError) and for transitions without lines (IndexError)."
  },
  {
   "property": "C118",
   "status": "partial",
   "theorems": [
    "C118_hyperfine_refuted",
    "C118_zeeman_refuted",
    "C118_chosen_partial"
   ],
   "note": "Refuted: the default line shape is a class, so that every line is a TypeError. C118_chosen_partial: without a line shape one is chosen from temperature, mass and laser linewidth; the default temperature None raises."
  },
  {
   "property": "C119",
   "status": "partial",
   "theorems": [
    "C119_list_partial",
    "C119_single_refuted",
    "C119_direct_refuted",
    "C119_labels_refuted"
   ],
   "note": "Lists of fine-structure transitions are drawn. A single transition always raises; labels leave out the configuration and may repeat. plot_transitions of a single transition with lines raises as well."
  },
  {
   "property": "C120",
   "status": "partial",
   "theorems": [
    "C120_hyperfine_partial",
    "C120_whole_partial",
    "C120_labels_refuted",
    "C120_colouring_refuted",
    "C120_list_refuted",
    "C120_noshape_refuted",
    "C120_line_refuted"
   ],
   "note": "Proved for the named colorings and functions. Refuted: labels of a whole transition repeat, other colorings, lists of fine-structure transitions and single Zeeman lines raise. Without a line shape, or with a class, every line raises."
  },
  {
   "property": "C121",
   "status": "partial",
   "theorems": [
    "C121_heights_partial",
    "C121_unrated_refuted",
    "C121_factors"
   ],
   "note": "Proved when the transition has an A coefficient and is listed for the first time; without one every height is 1."
  },
  {
   "property": "C122",
   "status": "partial",
   "theorems": [
    "C122_leading",
    "C122_symmetric",
    "C122_single",
    "C122_empty_refuted",
    "C122_transitive_refuted"
   ],
   "note": "Proved for non-empty MultiTerms, with both orders of the operands. False for an empty MultiTerm (IndexError); and the relation is not transitive through a MultiTerm, since two MultiTerms with the same leading component may differ."
  },
  {
   "property": "C123",
   "status": "partial",
   "theorems": [
    "C123_rows",
    "C123_missing",
    "C123_default_refuted",
    "C123_reuse_refuted"
   ],
   "note": "Proved: rows, synonyms, KeyError exactly if a column is missing. False: the default columns=None raises TypeError; the caller's dictionary gets extra keys, so naming another column under the long form has no effect when it is used again. pandas.read_csv is not modelled: a file is its list of columns."
  },
  {
   "property": "C124",
   "status": "partial",
   "theorems": [
    "C124_number_refuted",
    "C124_no_frequency",
    "C124_quantity",
    "C124_file_refuted",
    "C124_rates",
    "C124_honoured"
   ],
   "note": "Proved: tables without frequencies, and frequencies that are Quantities. False for tables read from a file: the cells are plain numbers and the first row that joins two levels of the atom raises AttributeError, with the transition left in the atom. C124_rates: rates in a file without a frequency column are in MHz."
  },
  {
   "property": "C125",
   "status": "partial",
   "theorems": [
    "C125_items",
    "C125_number",
    "C125_contains_partial",
    "C125_loose",
    "C125_mJ_refuted"
   ],
   "note": "Proved: the views agree; the numbers of sublevels; membership for keys that are not mJ names (partial). False for I = 0: level['mJ=1/2'] works while 'mJ=1/2' in level is False. A Zeeman sublevel is false as a condition. Levels outside the atom raise AttributeError."
  },
  {
   "property": "C126",
   "status": "partial",
   "theorems": [
    "C126_items",
    "C126_zeeman_refuted",
    "C126_refuted",
    "C126_contains_refuted"
   ],
   "note": "Proved: the views agree and name the sublevels. False: t[key] prefers the key turned round, so that for two levels with the same F values it is another item; keys turned round work in t[key] and are not in t; Zeeman lines have no length and raise AssertionError even as a condition."
  },
  {
   "property": "C127",
   "status": "partial",
   "theorems": [
    "C127_sublevel_partial",
    "C127_unread_refuted",
    "C127_only_refuted",
    "C127_line_partial"
   ],
   "note": "Proved when the sublevels or lines have been looked at and another one is left (partial). False before they were looked at (KeyError), and for the only sublevel, which is made anew."
  },
  {
   "property": "C128",
   "status": "partial",
   "theorems": [
    "C128_levels",
    "C128_nothing_refuted",
    "C128_sub_refuted",
    "C128_bare_refuted"
   ],
   "note": "Proved for the levels graph. False for the hyperfine and Zeeman graphs: their picture is empty, or fails as soon as a sublevel exists, because only the levels have positions; a transition of a level outside the atom makes the whole picture fail."
  },
  {
   "property": "C129",
   "status": "partial",
   "theorems": [
    "C129_owned",
    "C129_zeeman",
    "C129_nodes",
    "C129_frame",
    "C129_shared_refuted",
    "C129_energy_refuted"
   ],
   "note": "Proved for programs that add each level to one atom only (levels, sublevels, energies; transitions and aliases are not in this model). False when a level is added to a second atom: it keeps the sublevels of the first nuclear spin and moves the sublevels the first atom still holds."
  },
  {
   "property": "C130",
   "status": "partial",
   "theorems": [
    "C130_hyperfine_partial",
    "C130_zeeman_partial",
    "C130_mJ_partial",
    "C130_refuted"
   ],
   "note": "Proved: for levels that were added lower level first, both orders of the names give a line of the right transition between the right quantum numbers, or KeyError if there is none. False in general: the pair is first tried the wrong way round, so that F=0 to F=1 gives F=1 to F=0 when both exist."
  },
  {
   "property": "C131",
   "status": "partial",
   "theorems": [
    "C131_lines",
    "C131_unknown_refuted",
    "C131_names",
    "C131_arrows",
    "C131_keyword_refuted",
    "C131_default_look",
    "C131_default_arrow"
   ],
   "note": "Proved for the first picture of a diagram that can be drawn. An unknown strategy is accepted by add_level and makes every picture fail. An arrow keyword that matplotlib does not know is accepted by add_transition and makes every picture fail."
  },
  {
   "property": "C132",
   "status": "partial",
   "theorems": [
    "C132_rectangles",
    "C132_brackets",
    "C132_colors_partial",
    "C132_default",
    "C132_colors_refuted"
   ],
   "note": "Proved: positions of rectangles and brackets, colours of rectangles; colours of brackets if all levels with boxes agree. False otherwise: the colours are dealt out bracket by bracket, so that the right bracket of the first level has the colour of the second."
  },
  {
   "property": "C133",
   "status": "partial",
   "theorems": [
    "C133_refuted",
    "C133_stale_refuted",
    "C133_failed_refuted"
   ],
   "note": "False: the lines of every earlier picture are drawn again, and arrows stay where the levels were first drawn. A picture that fails half-way leaves its lines behind for the next one (C133_failed_refuted)."
  },
  {
   "property": "C134",
   "status": "partial",
   "theorems": [
    "C134_kept",
    "C134_levels",
    "C134_ranks",
    "C134_transitions",
    "C134_aliases",
    "C134_lines_partial",
    "C134_lifetimes",
    "C134_refuted"
   ],
   "note": "Proved except for lines of transitions: linked_levels of a sublevel makes the lines of its transitions anew, so that transition[key] is another object afterwards and an A coefficient set on the old one is lost."
  },
  {
   "property": "C135",
   "status": "partial",
   "theorems": [
    "C135_once",
    "C135_internal",
    "C135_partial",
    "C135_conversions",
    "C135_refuted"
   ],
   "note": "Proved as long as the caller writes to no returned array. The arrays are shared through lru_cache, so writing to one changes every later result for the same quantum numbers."
  },
  {
   "property": "C136",
   "status": "partial",
   "theorems": [
    "C136_stays",
    "C136_same",
    "C136_level",
    "C136_refuted"
   ],
   "note": "Proved for everything but deleting a transition itself: del transitions[key] and transitions[key] = t always raise TypeError and change nothing."
  },
  {
   "property": "C137",
   "status": "partial",
   "theorems": [
    "C137_partial",
    "C137_add_refuted"
   ],
   "note": "Proved for set_frequency of transitions and of their lines; false for add_transition with a frequency, which enforces everything, so that a pair of levels not linked to the new transition can move."
  },
  {
   "property": "C138",
   "status": "partial",
   "theorems": [
    "C138_everything",
    "C138_names",
    "C138_level_refuted",
    "C138_zeeman_refuted",
    "C138_trans_refuted",
    "C138_line_refuted"
   ],
   "note": "False for every object that can be passed: for levels and hyperfine levels of the atom, and for transitions whose lines have been read, nothing is enforced; for a Zeeman level everything is; for a Zeeman line the call raises AssertionError. Proved as well: without an argument everything is enforced, and for a pair of level names the levels not tied to the first one keep their energies."
  },
  {
   "property": "C139",
   "status": "partial",
   "theorems": [
    "C139_sublevel_partial",
    "C139_unread_refuted",
    "C139_line_partial",
    "C139_unread_line_refuted"
   ],
   "note": "Proved for levels and transitions whose sublevels or lines have been read; where they have not been read the assigned object stays the only one. A line assigned under a key is not the one found there if there is a line under the key turned round."
  },
  {
   "property": "C140",
   "status": "partial",
   "theorems": [
    "C140_items",
    "C140_iteration",
    "C140_contains",
    "C140_index",
    "C140_other_refuted"
   ],
   "note": "Proved for terms and for MultiTerms with components; looking for any other object, or for an empty MultiTerm, raises."
  },
  {
   "property": "C141",
   "status": "partial",
   "theorems": [
    "C141_level_partial",
    "C141_transition",
    "C141_atom",
    "C141_views_partial",
    "C141_term",
    "C141_multiterm",
    "C141_repr_refuted",
    "C141_count_refuted",
    "C141_empty_refuted"
   ],
   "note": "repr of a MultiTerm always raises TypeError; repr of a level says 0 sublevels until they have been read; repr of atom.levels or atom.transitions raises IndexError when there is none. The rest is proved."
  },
  {
   "property": "C142",
   "status": "proved",
   "theorems": [
    "C142_any_arithmetic",
    "C142_rounding"
   ],
   "note": "IEEE binary64, round to nearest even (Flocq); overflow is the only exception. Also proved for every arithmetic: one of the two energies is the other plus or minus the frequency, as computed."
  },
  {
   "property": "C143",
   "status": "partial",
   "theorems": [
    "C143_frequency",
    "C143_line",
    "C143_level",
    "C143_new_level",
    "C143_wavelength",
    "C143_zero_refuted",
    "C143_sublevel_refuted",
    "C143_line_refuted",
    "C143_degenerate_refuted"
   ],
   "note": "Exact rational magnitudes. Proved for levels and for transitions that get a frequency for the first time. False: 0 per cm raises ZeroDivisionError (the context that would convert wavenumbers directly is never registered, pint goes through the wavelength); sublevels and lines refuse every unit but frequencies; a transition between levels of equal energy has no wavelength. pint's built-in spectroscopy context is part of the model."
  },
  {
   "property": "C144",
   "status": "partial",
   "theorems": [
    "C144_hyperfine_refuted",
    "C144_zeeman_refuted",
    "C144_manifolds",
    "C144_lifetime_refuted"
   ],
   "note": "False: the rates of the lines leaving the hyperfine level F of an E1 or M1 transition sum to A(2F+1)/(2J+1), and those of the lines of one Zeeman level to 1/(2F+1) of their hyperfine lines, so no sublevel lives as long as its level unless J = 0; a concrete atom shows total rates 4 for the level, 3 and 5 for its hyperfine levels. Proved: how the decays divide between the lower levels does not depend on F. For transitions whose lines are read for the first time."
  },
  {
   "property": "C145",
   "status": "partial",
   "theorems": [
    "C145_alias_stays",
    "C145_other_lookups",
    "C145_created",
    "C145_added_partial",
    "C145_add_refuted"
   ],
   "note": "Proved for the alias setter, the constructor and for add_transition whenever the transition it returns carries the alias. False: an alias passed to add_transition together with a Transition, or with the names of levels that already have a transition, is dropped. Deleting levels does not remove aliases."
  },
  {
   "property": "C146",
   "status": "proved",
   "theorems": [
    "C146_moves"
   ],
   "note": ""
  },
  {
   "property": "C147",
   "status": "partial",
   "theorems": [
    "C147_partial",
    "C147_names_partial",
    "C147_enforce_partial",
    "C147_alias_partial",
    "C147_alias_refuted",
    "C147_tr_alias_refuted",
    "C147_frequency_refuted",
    "C147_add_refuted",
    "C147_enforce_refuted"
   ],
   "note": "Proved for every operation but the alias setters, set_frequency, enforce_consistency and add_transition; for add_transition with names that are not those of levels; the alias setters do not fail on levels and transitions in the atom; enforce_consistency and set_frequency do not fail when all joined levels are in the atom. False: an alias or frequency of something not in the atom raises AttributeError and takes effect when it is added; add_transition of a transition whose lines were listed raises after joining the levels; enforce_consistency raises half-way when a joined level was never added."
  },
  {
   "property": "C148",
   "status": "proved",
   "theorems": [
    "C148_ratios",
    "C148_rate",
    "C148_zero"
   ],
   "note": ""
  },
  {
   "property": "C149",
   "status": "partial",
   "theorems": [
    "C149_order_partial",
    "C149_ground_refuted",
    "C149_middle_refuted"
   ],
   "note": "Exact rational arithmetic. Proved for any two such orders: no warnings, every frequency is met in both, levels tied by set frequencies are equally far apart in both, and levels in no constraint keep their energy. False for the energies themselves: which level moves depends on the order, so the ground level may leave 0 (witness with three levels). Setting the middle step of a chain last, where no level is free any more, leaves its frequency unmet (witness with four levels)."
  },
  {
   "property": "C150",
   "status": "partial",
   "theorems": [
    "C150_order_partial",
    "C150_index",
    "C150_tie_refuted",
    "C150_direction_refuted"
   ],
   "note": "Proved for any arithmetic, for EnergyLevels without sublevels yet, when no frequency is set and the later calls neither enforce frequencies nor look up by rank or by pairs of names; C150_index adds levels[i] when no two energies are equal, in exact arithmetic. False otherwise: levels[0] of two levels with equal energies, and transitions[(a, b)], which is found in one order and raises KeyError in the other."
  },
  {
   "property": "C151",
   "status": "partial",
   "theorems": [
    "C151_add_partial",
    "C151_join_partial",
    "C151_linked_refuted",
    "C151_transitions_refuted",
    "C151_sublevels_refuted"
   ],
   "note": "Proved for add_transition by keys (and, in C28, for levels[alias]). False for everything else, and for every such alias: linked_levels, state_lifetime and compute_branching_ratios, pairs of keys in transitions, and keys of sublevels raise KeyError. A hyperfine or Zeeman level's alias is not covered by C151_linked_refuted."
  },
  {
   "property": "C152",
   "status": "partial",
   "theorems": [
    "C152_hyperfine_partial",
    "C152_quadrupole_partial",
    "C152_zeeman_partial",
    "C152_overlap_refuted"
   ],
   "note": "Exact arithmetic; transitions with an A coefficient (without one all relative strengths are 1). Proved for E1, M1 and pure E2 hyperfine lines and for E1 and M1 Zeeman lines, when the sublevels of the two levels do not overlap. That all sublevels of a hyperfine level have one g-factor is an invariant of every history (AtomSib), not a hypothesis. False when the structures overlap: lines are missing (C34) and the rest is off centre (witness). E2 Zeeman lines do not obey the sum rule (C106)."
  },
  {
   "property": "C153",
   "status": "proved",
   "theorems": [
    "C153_added",
    "C153_order",
    "C153_decay"
   ],
   "note": ""
  },
  {
   "property": "C154",
   "status": "partial",
   "theorems": [
    "C154_local",
    "C154_field_local",
    "C154_linear",
    "C154_field",
    "C154_units",
    "C154_zero_refuted"
   ],
   "note": "False for zero: level.hfA = 0/cm raises ZeroDivisionError, because pint's spectroscopy context goes through 1/value. The rest is proved. The unit of the field itself is not modelled (the conversion of tesla to gauss depends on the version of pint); fields are in gauss."
  },
  {
   "property": "C155",
   "status": "proved",
   "theorems": [
    "C155_scale",
    "C155_origin"
   ],
   "note": ""
  },
  {
   "property": "C156",
   "status": "proved",
   "theorems": [
    "C156_spectators",
    "C156_scaled"
   ],
   "note": ""
  },
  {
   "property": "C157",
   "status": "partial",
   "theorems": [
    "C157_order_partial",
    "C157_settings",
    "C157_refuted"
   ],
   "note": "False of the code in general: C157_refuted gives a history with contradicting set frequencies after which energies and warnings depend on the iteration order. Proved (C157_order_partial, C157_settings): if every call that enforces consistency either comes while all constraints hold and adds at most one constraint, with a free level (by level objects or by names), or enforces from scratch a set of constraints without loops and with an anchor in every group (C158), or enforces any number of new constraints without loops that hang from fixed levels (C159), the atoms and all results are the same under all orders. Missing: groups of constraints without an anchor, where the order can matter."
  },
  {
   "property": "C158",
   "status": "proved",
   "theorems": [
    "C158_anchor",
    "C158_any_order"
   ],
   "note": ""
  },
  {
   "property": "C159",
   "status": "partial",
   "theorems": [
    "C159_hanging_partial",
    "C159_settled",
    "C159_any_order",
    "C159_torn_refuted"
   ],
   "note": "False of the code in general: C159_torn_refuted gives a path of four levels, without a loop, whose upper step was enforced before; enforcing the two lower steps warns of a loop and leaves the middle one unmet. Proved (C159_hanging_partial, C159_settled, C159_any_order; exact arithmetic): if the lowest level of every group that has fixed levels is fixed and connected with the other fixed ones by met constraints, any number of new constraints is met at once, without warnings, no fixed level moves, the atom is settled again, and the iteration order does not matter when every group has a fixed level."
  },
  {
   "property": "C160",
   "status": "partial",
   "theorems": [
    "C160_script_partial",
    "C160_Yb173_Yb174",
    "C160_Yb171_refuted"
   ],
   "note": "False of the scripts in the repository: C160_Yb171_refuted, species/Yb_II_171.py passes two positional arguments to Atom.add_transition, so on every atom with the levels it names it ends with TypeError before the quadratic Zeeman coefficients are set and before the atom is saved. Proved (exact arithmetic): C160_Yb173_Yb174, the scripts for 173Yb and 174Yb do what they say on every settled atom without constraints that has their levels and lines; C160_script_partial, the same for scripts of any length. Needed there: a line that is overridden was added lower level first (else C29_refuted: KeyError) and before its levels are used for other frequencies, and every statement with a frequency has a level no frequency was set for (else C42, C44: overwritten or inconsistent). Generation from the tables and saving are other properties."
  },
  {
   "property": "C161",
   "status": "partial",
   "theorems": [
    "C161_configured_partial",
    "C161_order_refuted",
    "C161_Yb173_Yb174",
    "C161_Yb171_refuted",
    "C161_unreadable_row"
   ],
   "note": "False of the files in the repository: C161_Yb171_refuted, species/Yb_II_171.py ends with TypeError on all tables it could be run on, before the quadratic Zeeman coefficients are set. False in general: C161_order_refuted, with a table that lists the upper of two levels first, the transition between them is made but the script stops with KeyError. Proved (exact arithmetic): C161_Yb173_Yb174, the files for 173Yb and 174Yb work with all well-formed tables that have their levels and lines, the lower level of an overridden line first; C161_configured_partial, the same for scripts of any length under the conditions of C160, which are now conditions on the tables alone. C161_unreadable_row: a row of the file of hyperfine constants that raises TypeError silently ends the reading of that file, any other exception ends the generation. Other rows that cannot be read are C84 and C57; reading NIST pages and csv files by pandas and saving are not modelled here."
  },
  {
   "property": "C162",
   "status": "proved",
   "theorems": [
    "C162_gross"
   ],
   "note": ""
  }
 ]
}