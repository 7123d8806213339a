{
 "C03": {
  "status": "proved",
  "note": "The two negative clauses (not transitive, equal but different hashes) are the _refuted theorems."
 },
 "C04": {
  "status": "proved",
  "note": "C04_lookup_by_default_name_refuted shows the proviso on colliding aliases is needed; C04_legacy_systems_unique_names_refuted shows the hypothesis on labels is needed (the legacy compQSystem and qSystem classes share a label)."
 },
 "C05": {
  "status": "proved",
  "note": "The proviso is needed: C05_alias_exclusive_refuted."
 },
 "C06": {
  "status": "proved",
  "note": "Return value: proved for lists without empty sub-lists; C06_returns_last_value_refuted for a trailing empty sub-list."
 },
 "C10": {
  "status": "proved",
  "note": "The default call is characterised exactly; the claim that a second default call clears again is false (C10_repeated_call_clears_again_refuted): the shared default list keeps every visited system."
 },
 "C13": {
  "status": "proved",
  "note": "A finding: the claim that the flag is harmless on the first sweep is refuted, and the failure is proved for every sweep list."
 },
 "C14": {
  "status": "proved",
  "note": "C14_list_follows_bounds_refuted: the list is computed once."
 },
 "C17": {
  "status": "proved",
  "note": "C17_calculated_refuted shows why 'calculated' is excepted."
 },
 "C53": {
  "status": "proved",
  "note": "A finding: the naive claim is refuted when all sweeps were removed between two runs."
 },
 "C54": {
  "status": "proved",
  "note": "Proved when every sweep has the system; refuted otherwise."
 },
 "C55": {
  "status": "proved",
  "note": "A finding: the documented behaviour is refuted, the actual one is proved for every one-sweep run."
 },
 "C18": {
  "status": "proved",
  "note": "C18_assignment_breaks_bound_refuted and C18_no_cycles_refuted are the two negative clauses."
 },
 "C19": {
  "status": "proved",
  "note": "Numbers are exact rationals; float rounding is not modelled."
 },
 "C22": {
  "status": "proved",
  "note": "Positive theorem over all histories plus four refutations showing that each proviso is needed."
 },
 "C23": {
  "status": "proved",
  "note": "Positive theorem plus three refutations (same parameter twice, several systems, shared update object)."
 },
 "C24": {
  "status": "proved",
  "note": "C24_flat_composite; concrete example beside it."
 },
 "C25": {
  "status": "proved",
  "note": "Invariant over histories (allFine). The failure beyond 2^53 is C25_large_dimensions_refuted."
 },
 "C26": {
  "status": "proved",
  "note": "Expected property refuted with a witness."
 },
 "C27": {
  "status": "proved",
  "note": "Proved for single systems removed through their own composite; the expected claims about the removed system's dimension and about removed composites are refuted."
 },
 "C28": {
  "status": "proved",
  "note": "Self-containment and indirect cycles are refuted by witnesses (self-add for every recursion limit)."
 },
 "C32": {
  "status": "proved",
  "note": "C32_second_term_refuted shows the gap for later terms."
 },
 "C30": {
  "status": "proved",
  "note": "The counterexamples are the _refuted theorems; the positive theorems hold for all other calls."
 },
 "C31": {
  "status": "proved",
  "note": "resetTerms and terms = [] leave the cached Hamiltonian in place: C31_resetTerms_refuted."
 },
 "C42": {
  "status": "proved",
  "note": "the last sentence is C42_not_a_spin_refuted (witness j = 3/4)"
 },
 "C39": {
  "status": "proved",
  "note": "pairs: C39_pairs_refuted; exponential: expm is any function fixing left null vectors and commuting with conjugation and similarity"
 },
 "C40": {
  "status": "proved",
  "note": "the expected claim (rho to U rho U^+, trace preserved) is false: C40_trace_refuted, C40_right_iff_hermitian"
 },
 "C50": {
  "status": "proved",
  "note": "last sentence: C50_closed_refuted"
 },
 "C47": {
  "status": "proved",
  "note": "C47_one_level_refuted: with one level the functions cannot tell a ket from a density matrix. The rounding in the code is not modelled: expectation drops an imaginary part below about 10^-12 and fidelityPure rounds the overlap of two kets to 20 decimals, so its result 1 for kets equal up to a phase only is exact in the model."
 },
 "C36": {
  "status": "proved",
  "note": "Negative indices refuted by C36_negative_refuted; numpy's limit of 32 axes and length-1 broadcasting are not modelled."
 },
 "C51": {
  "status": "proved",
  "note": "The text format of numbers is an argument with the round-trip law (satisfied by the concrete decimal instance in PropsCsv.v); the time-stamp default name and directory creation are not modelled."
 },
 "C52": {
  "status": "proved",
  "note": "Exact arithmetic in an ordered field; pi is an argument. One drive is modelled at a time."
 },
 "C33": {
  "status": "proved",
  "note": "Keyword arguments of copy and time dependencies of terms (which are not copied) are not modelled."
 },
 "C67": {
  "status": "proved",
  "note": "The identities are about the exact cosine and sine (rotationBy); C67_rounded bounds what the code's rounding to 15 decimals changes and C67_rounded_refuted shows that the rounded gates are not all unitary. Floating-point error is not modelled."
 },
 "C48": {
  "status": "proved",
  "note": "The model takes the cosine and sine as given numbers with c^2+s^2=1, so the rounding of spinRotations.py to 15 decimals is left out. C67_rounded bounds its effect; C67_rounded_refuted shows that the rounded gates are not all exactly unitary."
 },
 "C62": {
  "status": "proved",
  "note": "The expectation value used by standardDev is modelled without its rounding of small imaginary parts (12 decimals), which does not matter for Hermitian operators in exact arithmetic."
 }
}