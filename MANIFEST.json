{
 "claims": [
  {
   "property": "C01",
   "status": "proved",
   "theorems": [
    "C01_expression_eval",
    "C01_wsum_secrets",
    "C01_wsum_secrets_lengths"
   ],
   "note": ""
  },
  {
   "property": "C02",
   "status": "partial",
   "theorems": [
    "C02_sum_partial",
    "C02_left_operand_refuted",
    "C02_reuse_refuted",
    "C02_linear_use_partial",
    "C02_wsum_secrets_pure"
   ],
   "note": "The value of a sum is right and objects other than the left operand are kept: proved. That the left operand is kept is refuted: + extends it in place, so a reused sub-expression grows. Programs that use no variable twice compute the same as with values: proved."
  },
  {
   "property": "C03",
   "status": "proved",
   "theorems": [
    "C03_modular_sum"
   ],
   "note": ""
  },
  {
   "property": "C04",
   "status": "proved",
   "theorems": [
    "C04_residual_challenge"
   ],
   "note": ""
  },
  {
   "property": "C05",
   "status": "proved",
   "theorems": [
    "C05_bit_decomposition",
    "C05_bits_unique"
   ],
   "note": ""
  },
  {
   "property": "C06",
   "status": "proved",
   "theorems": [
    "C06_dlrep_complete"
   ],
   "note": ""
  },
  {
   "property": "C07",
   "status": "proved",
   "theorems": [
    "C07_interactive_complete",
    "C07_every_challenge"
   ],
   "note": ""
  },
  {
   "property": "C08",
   "status": "proved",
   "theorems": [
    "C08_nizk_accepted",
    "C08_prove_succeeds"
   ],
   "note": ""
  },
  {
   "property": "C09",
   "status": "proved",
   "theorems": [
    "C09_wrong_values_rejected",
    "C09_in_conjunction_rejected"
   ],
   "note": ""
  },
  {
   "property": "C10",
   "status": "proved",
   "theorems": [
    "C10_special_soundness",
    "C10_one_value"
   ],
   "note": ""
  },
  {
   "property": "C11",
   "status": "partial",
   "theorems": [
    "C11_or_forgery_refuted",
    "C11_large_challenges_refuted",
    "C11_nizk_forgery_refuted",
    "C11_or_soundness_partial"
   ],
   "note": "Refuted: the verifier checks neither the number nor the size of the sub-challenges, so an or-proof of any false statement can be forged (interactively and as a non-interactive proof). Proved under exactly those checks: extraction of a witness for a branch."
  },
  {
   "property": "C12",
   "status": "partial",
   "theorems": [
    "C12_branch_hidden_refuted"
   ],
   "note": "Refuted: one function finds the real branch from the signs of the sub-challenges. (Nothing else is shown: C62.)"
  },
  {
   "property": "C13",
   "status": "proved",
   "theorems": [
    "C13_simulation_verifies",
    "C13_simulate_succeeds",
    "C13_no_secret_value"
   ],
   "note": ""
  },
  {
   "property": "C14",
   "status": "proved",
   "theorems": [
    "C14_honest_verifier_zk"
   ],
   "note": ""
  },
  {
   "property": "C15",
   "status": "proved",
   "theorems": [
    "C15_simulated_accepted_iff_hash"
   ],
   "note": ""
  },
  {
   "property": "C16",
   "status": "partial",
   "theorems": [
    "C16_hash_checked",
    "C16_mismatch",
    "C16_same_identifier",
    "C16_same_relation",
    "C16_bound",
    "C16_range_commitment_refuted",
    "C16_range_commitment"
   ],
   "note": "Proved, except that the commitment of a range statement is not in its identifier (refuted); it is compared with the precommitment instead (proved)."
  },
  {
   "property": "C17",
   "status": "proved",
   "theorems": [
    "C17_identifier",
    "C17_verdicts",
    "C17_proofs",
    "C17_verify",
    "C17_transcripts",
    "C17_conversations"
   ],
   "note": ""
  },
  {
   "property": "C18",
   "status": "proved",
   "theorems": [
    "C18_message"
   ],
   "note": ""
  },
  {
   "property": "C19",
   "status": "partial",
   "theorems": [
    "C19_framed_partial",
    "C19_unframed_refuted",
    "C19_message_cut_refuted",
    "C19_bytes_partial"
   ],
   "note": "Proved if precommitment and commitment are not raw byte strings; a byte string as precommitment is hashed without a frame (two refutations)."
  },
  {
   "property": "C20",
   "status": "proved",
   "theorems": [
    "C20_accepted_consistent",
    "C20_nizk_consistent",
    "C20_clash_raises"
   ],
   "note": ""
  },
  {
   "property": "C21",
   "status": "partial",
   "theorems": [
    "C21_only_if_offence",
    "C21_offence_refused",
    "C21_verifier_refuted"
   ],
   "note": "Prover: proved in both directions. Verifier: refuted, it accepts different values inside and outside of an or-clause."
  },
  {
   "property": "C22",
   "status": "proved",
   "theorems": [
    "C22_only_if_offence",
    "C22_offence_refused",
    "C22_one_integer"
   ],
   "note": ""
  },
  {
   "property": "C23",
   "status": "proved",
   "theorems": [
    "C23_and_associative",
    "C23_or_associative"
   ],
   "note": ""
  },
  {
   "property": "C24",
   "status": "proved",
   "theorems": [
    "C24_real_branch_not_simulated",
    "C24_marked_not_chosen"
   ],
   "note": ""
  },
  {
   "property": "C25",
   "status": "partial",
   "theorems": [
    "C25_one_branch_enough_partial",
    "C25_missing_value_refuted",
    "C25_primitive_refuted"
   ],
   "note": "Proved for branches that are representations or disjunctions of them. Refuted for a branch that is a conjunction with a missing value: an exception is raised although another branch could be proven; likewise for a branch that is an inequality or range with a missing value or a signature proof without signature (C25_primitive_refuted)."
  },
  {
   "property": "C26",
   "status": "partial",
   "theorems": [
    "C26_prove_again_partial",
    "C26_prove_again_refuted"
   ],
   "note": "Proved for statements without disjunctions outside of primitives. Refuted for disjunctions: every proof marks branches as simulated for good, until none is left."
  },
  {
   "property": "C27",
   "status": "proved",
   "theorems": [
    "C27_inequality_complete"
   ],
   "note": ""
  },
  {
   "property": "C28",
   "status": "proved",
   "theorems": [
    "C28_inequality_sound"
   ],
   "note": ""
  },
  {
   "property": "C29",
   "status": "proved",
   "theorems": [
    "C29_range_complete"
   ],
   "note": ""
  },
  {
   "property": "C30",
   "status": "partial",
   "theorems": [
    "C30_range_sound_partial",
    "C30_forgery_refuted",
    "C30_extra_commitment_refuted"
   ],
   "note": "Refuted: the verifier does not check the number of bit commitments, nor the or-challenges (see C11). Proved under these checks (the value and the opening are computed from two proofs), for groups of at least 2^129 elements."
  },
  {
   "property": "C31",
   "status": "partial",
   "theorems": [
    "C31_value_hidden_refuted"
   ],
   "note": "Refuted: the sub-challenges of the bit proofs give the bits (see C12), one function computes the value from every transcript."
  },
  {
   "property": "C32",
   "status": "partial",
   "theorems": [
    "C32_range_reduction",
    "C32_range_provable",
    "C32_range_formed",
    "C32_small_ranges_refuted"
   ],
   "note": "Arithmetic and provability proved. Refuted for ranges of one or two elements: they can never be proven (the power-of-two range has n <= 1, an exception)."
  },
  {
   "property": "C33",
   "status": "partial",
   "theorems": [
    "C33_verification_decides",
    "C33_issued_verifies",
    "C33_issuing_succeeds",
    "C33_blinding_accepted",
    "C33_reused_creator_refuted"
   ],
   "note": "Proved for a new creator (blinded or not), with success of issuing and acceptance of the proof of the blinding. Refuted for a reused creator: after a blinded commitment, the signature on an unblinded one does not verify, because the old s1 is added."
  },
  {
   "property": "C34",
   "status": "partial",
   "theorems": [
    "C34_surplus_messages_refuted",
    "C34_trailing_zeros_refuted",
    "C34_bound_partial"
   ],
   "note": "Refuted: messages beyond the number of bases are ignored, zeros can be appended. Proved (non-degenerate pairing): the messages that have a base differ only by a relation between the bases."
  },
  {
   "property": "C35",
   "status": "proved",
   "theorems": [
    "C35_signature_complete",
    "C35_signature_sound"
   ],
   "note": ""
  },
  {
   "property": "C36",
   "status": "partial",
   "theorems": [
    "C36_wire",
    "C36_exact",
    "C36_signature_refuted"
   ],
   "note": "Proved if the points of the proof are decoded to themselves. Refuted for points of pairing groups (decoded into a new group object): no proof of knowledge of a signature is accepted after serialization."
  },
  {
   "property": "C37",
   "status": "partial",
   "theorems": [
    "C37_in_conjunction_partial",
    "C37_simulate_refuted",
    "C37_in_disjunction_refuted"
   ],
   "note": "Proved in conjunctions. Refuted for simulation and in disjunctions (simulate_precommit is missing)."
  },
  {
   "property": "C38",
   "status": "proved",
   "theorems": [
    "C38_two_responses_reveal",
    "C38_new_commit_fresh"
   ],
   "note": ""
  },
  {
   "property": "C39",
   "status": "partial",
   "theorems": [
    "C39_reduced_refuted",
    "C39_same_challenge",
    "C39_places",
    "C39_one_challenge",
    "C39_other_subchallenge",
    "C39_one_response"
   ],
   "note": "Refuted: a multiple of the group order can be added to a response. Proved for statements of any form: two accepted proofs with one challenge differ, at every representation, by a relation between the bases, or by sub-challenges and a solution of the equation there (or there is a collision of the hash function)."
  },
  {
   "property": "C40",
   "status": "partial",
   "theorems": [
    "C40_generators_deterministic_partial",
    "C40_distinct_seeds_refuted",
    "C40_unseeded_fresh"
   ],
   "note": "Deterministic and prefix-closed: proved. \"Different seeds give different generators\" is refuted: seeds s and s+1 share all but one generator. Without a seed: the generators are hashes of fresh random bytes (proved)."
  },
  {
   "property": "C41",
   "status": "proved",
   "theorems": [
    "C41_random_num_range",
    "C41_response_range",
    "C41_challenge_range"
   ],
   "note": ""
  },
  {
   "property": "C42",
   "status": "partial",
   "theorems": [
    "C42_own_values_refuted",
    "C42_reuse_refuted"
   ],
   "note": "Refuted: provers of one statement share the dictionary of values; two proofs by one or-prover reveal the real branch."
  },
  {
   "property": "C43",
   "status": "partial",
   "theorems": [
    "C43_same_name_partial",
    "C43_same_name_refuted"
   ],
   "note": "Proved for occurrences in one part whose Secret objects have the same value (or none); refuted for same-named objects with different values."
  },
  {
   "property": "C44",
   "status": "partial",
   "theorems": [
    "C44_interactive_partial",
    "C44_single_refuted"
   ],
   "note": "Proved for all primitives whose construct_stmt returns a conjunction; refuted if it returns a single representation (TypeError)."
  },
  {
   "property": "C45",
   "status": "partial",
   "theorems": [
    "C45_construction_refuted",
    "C45_range_only_is_range",
    "C45_other_commitment",
    "C45_with_commitment_partial"
   ],
   "note": "Refuted: a verifier cannot construct RangeOnlyStmt without the value, and with a value it makes another commitment. Proved: a verifier who is told the commitment and uses RangeStmt accepts."
  },
  {
   "property": "C46",
   "status": "partial",
   "theorems": [
    "C46_two_groups_refuted",
    "C46_two_groups_partial"
   ],
   "note": "Refuted: the precommitment is compared with the neutral element of the wrong group. Proved if it is not the neutral element of the group of h."
  },
  {
   "property": "C47",
   "status": "partial",
   "theorems": [
    "C47_power_two_refuted",
    "C47_range_refuted"
   ],
   "note": "Refuted for both statements: without values at construction, prove() raises."
  },
  {
   "property": "C48",
   "status": "partial",
   "theorems": [
    "C48_mark_kept_partial",
    "C48_mark_kept_refuted"
   ],
   "note": "Proved for conjunctions; refuted for disjunctions, which are dissolved together with their mark."
  },
  {
   "property": "C49",
   "status": "proved",
   "theorems": [
    "C49_conjunction_zk"
   ],
   "note": ""
  },
  {
   "property": "C50",
   "status": "partial",
   "theorems": [
    "C50_inequality_refuted",
    "C50_power_two_refuted",
    "C50_range_refuted"
   ],
   "note": "Refuted for GT, whose points have no subtraction: prove() of an inequality and the construction of RangeStmt raise TypeError, a power-of-two range can be neither proven nor verified. In groups with subtraction: proved as C27, C29, C32."
  },
  {
   "property": "C51",
   "status": "proved",
   "theorems": [
    "C51_used_object",
    "C51_other_values"
   ],
   "note": ""
  },
  {
   "property": "C52",
   "status": "proved",
   "theorems": [
    "C52_mixed_bases",
    "C52_few_parts",
    "C52_left_hand_side_accepted",
    "C52_never_verified"
   ],
   "note": ""
  },
  {
   "property": "C53",
   "status": "proved",
   "theorems": [
    "C53_one_randomizer",
    "C53_given_randomizer"
   ],
   "note": ""
  },
  {
   "property": "C54",
   "status": "partial",
   "theorems": [
    "C54_range_sound_partial",
    "C54_out_of_range_refuted"
   ],
   "note": "Refuted, as C30: who can open the commitment to any value has an accepted proof. Proved if the numbers of bit commitments and the sub-challenges are checked (the openings are computed from two proofs), for groups of at least 2^129 (and twice the range) elements."
  },
  {
   "property": "C55",
   "status": "proved",
   "theorems": [
    "C55_wrong_values_rejected"
   ],
   "note": ""
  },
  {
   "property": "C56",
   "status": "proved",
   "theorems": [
    "C56_possession_accepted"
   ],
   "note": ""
  },
  {
   "property": "C57",
   "status": "proved",
   "theorems": [
    "C57_blinding_sound"
   ],
   "note": ""
  },
  {
   "property": "C58",
   "status": "proved",
   "theorems": [
    "C58_whole_conversation_zk"
   ],
   "note": ""
  },
  {
   "property": "C59",
   "status": "proved",
   "theorems": [
    "C59_hash_compared",
    "C59_mismatch",
    "C59_one_statement",
    "C59_simulation"
   ],
   "note": ""
  },
  {
   "property": "C60",
   "status": "partial",
   "theorems": [
    "C60_apart_prove_partial",
    "C60_apart_verify_partial",
    "C60_verified_partial",
    "C60_common_primitives_partial",
    "C60_values_refuted",
    "C60_marks_refuted"
   ],
   "note": "Proved for statements without common objects, and for compositions without precommitments that have only primitives in common and are proved with the same values. Refuted twice: a part of a conjunction keeps the values the conjunction was proved with; two conjunctions with a common disjunction cannot both be proved (the marks of the first proof stay)."
  },
  {
   "property": "C61",
   "status": "partial",
   "theorems": [
    "C61_proved_as_value_partial",
    "C61_verified_as_value_partial",
    "C61_built_partial",
    "C61_repeated_part_refuted"
   ],
   "note": "Proved if no composed statement is used twice (a primitive may be: it is copied). Refuted for composed statements, whose parts are not copied: a common inequality in both branches of an or-proof has one precommitment, and the honest proof is refused."
  },
  {
   "property": "C62",
   "status": "proved",
   "theorems": [
    "C62_values_hidden"
   ],
   "note": ""
  },
  {
   "property": "C63",
   "status": "proved",
   "theorems": [
    "C63_multiples",
    "C63_action",
    "C63_pairing",
    "C63_world"
   ],
   "note": ""
  },
  {
   "property": "C64",
   "status": "partial",
   "theorems": [
    "C64_sent",
    "C64_group_refuted",
    "C64_given_refuted"
   ],
   "note": "Equality, multiples and pairings of decoded points are as claimed. Refuted: decoded points of G2 and GT, and pairings of decoded points of G1, are in other groups than the originals (GTGroup has no __eq__), which DLRep refuses. Refuted: the constructor does not set bpgp if a group is given, so that every use fails with AttributeError."
  },
  {
   "property": "C65",
   "status": "partial",
   "theorems": [
    "C65_live_names",
    "C65_unique_refuted"
   ],
   "note": "Proved for objects that live at the same time, up to two addresses whose hashes agree in the first 16 bytes (the name has 32 hexadecimal digits). Refuted over time: an address, hence a name, is used again after an object is dropped."
  },
  {
   "property": "C66",
   "status": "partial",
   "theorems": [
    "C66_one_challenge",
    "C66_small_groups",
    "C66_inequality",
    "C66_or_partial"
   ],
   "note": "Proved for statements without disjunctions (primitives included, about the statement that the precommitment leads to) and for inequalities. For disjunctions only if the sub-challenges are as many as the branches and of the right size; false otherwise (C11)."
  },
  {
   "property": "C67",
   "status": "partial",
   "theorems": [
    "C67_answers_partial",
    "C67_responses_refuted",
    "C67_precommitment_refuted"
   ],
   "note": "Proved for messages of the form that provers produce, with any numbers and any points of the right groups in it, up to values too large for the binary format. Refuted for other messages: missing or short responses raise TypeError or IndexError, a missing precommitment ValueError."
  },
  {
   "property": "C68",
   "status": "proved",
   "theorems": [
    "C68_verify_pure",
    "C68_prove_effects",
    "C68_representation_effects"
   ],
   "note": ""
  },
  {
   "property": "C69",
   "status": "partial",
   "theorems": [
    "C69_reused_partial",
    "C69_honest_accepted",
    "C69_none_refuted"
   ],
   "note": "Proved for proofs whose precommitment reaches every primitive (all honest proofs do), whatever the object was used for, and for statements without primitives. Refuted for proofs with the precommitment None: the object then works with the precommitment of an earlier proof and can accept what a new object refuses with ValueError."
  },
  {
   "property": "C70",
   "status": "proved",
   "theorems": [
    "C70_unlinkable"
   ],
   "note": ""
  },
  {
   "property": "C71",
   "status": "partial",
   "theorems": [
    "C71_neutral_generator_shows",
    "C71_any_key_refuted"
   ],
   "note": "Refuted: the library does not look at the generators of a key; with the neutral element as third generator every proof shows the element A of the signature (proved for all such keys). Under keys with a usable third generator proofs cannot be linked (C70)."
  },
  {
   "property": "C72",
   "status": "partial",
   "theorems": [
    "C72_attempt_get_prover",
    "C72_failed_calls_partial",
    "C72_used_objects_partial",
    "C72_prove_is_use",
    "C72_verify_is_use",
    "C72_disjunctions_refuted",
    "C72_values_stay_refuted"
   ],
   "note": "Proved for representations, primitives and conjunctions of such in any nesting, for objects used before in any way by prove() and verify(), with exceptions at any point (secrets identified consistently by name and object if there are primitives). Refuted for disjunctions of representations (once no branch had its values, no later call of prove() on the object succeeds) and for calls that do not give all values (values of failed calls stay and are used)."
  },
  {
   "property": "C73",
   "status": "partial",
   "theorems": [
    "C73_library_prove",
    "C73_library_verify",
    "C73_library_simulate",
    "C73_complete_partial",
    "C73_simulation",
    "C73_none_refuted",
    "C73_string_refuted"
   ],
   "note": "Proved for constructed statements without primitives (C75), with secrets of or-clauses not used outside of them (C21), precommitments other than None and strings (refuted for these: with None no verifier accepts, with a string prove() raises), and up to messages with parts of 2^32 bytes. The object is used on its own; conjunctions are C82, the library's primitives in compositions C37."
  },
  {
   "property": "C74",
   "status": "partial",
   "theorems": [
    "C74_sound_partial",
    "C74_sound_or_partial"
   ],
   "note": "Proved for constructed statements without primitives (C75), and for disjunctions under the conditions of C11 only (one sub-challenge per branch, of absolute value below 2^128), which the verifier does not check."
  },
  {
   "property": "C75",
   "status": "partial",
   "theorems": [
    "C75_nested_verify_refuted",
    "C75_nested_check_refuted",
    "C75_nested_simulate_refuted"
   ],
   "note": "Refuted: prove() returns a proof, but verify(), check_statement() and simulate() raise an exception for every such class, because the verifier constructs only the outer statement."
  },
  {
   "property": "C76",
   "status": "partial",
   "theorems": [
    "C76_extract",
    "C76_extract_or_partial",
    "C76_false_statement"
   ],
   "note": "Proved for statements without disjunctions (primitives included, about the statement that the precommitment leads to), and for disjunctions under the conditions of C11 only, which the verifier does not check."
  },
  {
   "property": "C77",
   "status": "proved",
   "theorems": [
    "C77_reused_randomness_reveals"
   ],
   "note": ""
  },
  {
   "property": "C78",
   "status": "proved",
   "theorems": [
    "C78_plaintext_complete",
    "C78_plaintext_sound",
    "C78_inequality_as_in_library",
    "C78_inequality_simulated",
    "C78_plaintext_simulated",
    "C78_inequality_complete",
    "C78_inequality_sound"
   ],
   "note": ""
  },
  {
   "property": "C79",
   "status": "partial",
   "theorems": [
    "C79_same_proof",
    "C79_new_representation",
    "C79_range_refuted"
   ],
   "note": "Proved for statements whose secrets are identified by their names and that have not been used before; for ranges, if both objects were built with the values of x and r. Refuted for ranges built without the values (C47). \"The same random numbers\" is: the same number for the same secret; the order in which python draws them for one representation depends on the hashes of names and values."
  },
  {
   "property": "C80",
   "status": "proved",
   "theorems": [
    "C80_request_hides",
    "C80_neutral_generator_shows"
   ],
   "note": ""
  },
  {
   "property": "C81",
   "status": "partial",
   "theorems": [
    "C81_attributes",
    "C81_set_simulated",
    "C81_original_verified",
    "C81_composed_verified",
    "C81_values_refuted",
    "C81_inner_refuted"
   ],
   "note": "Proved for the attributes of the parts themselves: marks, chosen challenges, precommitments. Refuted for two kinds of changes, because the copies are shallow: the dictionary of values is common (proving an original with values makes the composed statement provable without values), and so are the parts of a part (marking one of them as simulated after composing changes the composed proof)."
  },
  {
   "property": "C82",
   "status": "partial",
   "theorems": [
    "C82_library_prove",
    "C82_library_verify",
    "C82_complete_partial",
    "C82_sound_partial",
    "C82_sound_or_partial",
    "C82_none_refuted"
   ],
   "note": "Conjunctions. Completeness: the other parts are statements without primitives, the statements constructed have no primitives (C75), secrets of or-clauses are not used outside of them (C21), not all precommitments are None (refuted otherwise); up to messages with parts of 2^32 bytes. Soundness: without disjunctions, or under the conditions of C11. Disjunctions are C83."
  },
  {
   "property": "C83",
   "status": "partial",
   "theorems": [
    "C83_library_prove",
    "C83_library_verify",
    "C83_complete_partial",
    "C83_sound_partial",
    "C83_empty_refuted"
   ],
   "note": "Completeness: the other parts are statements without primitives, the statements constructed have no primitives (C75), secrets of or-clauses are not used outside of them (C21), not all precommitments are empty (refuted otherwise: with the precommit() of the base class no verifier accepts); up to messages with parts of 2^32 bytes. Soundness under the conditions of C11."
  },
  {
   "property": "C84",
   "status": "partial",
   "theorems": [
    "C84_library_prove",
    "C84_library_verify",
    "C84_library_run",
    "C84_complete_partial",
    "C84_interactive_partial",
    "C84_sound_partial"
   ],
   "note": "Completeness: the other parts are statements without primitives (the library's primitives are covered as classes), the statements constructed have no primitives (C75), secrets of or-clauses are not used outside of them (C21), precommitments are not None, in a disjunction not all empty (refuted otherwise, C73 and C83); one valuation for all parts proved in the run; up to messages with parts of 2^32 bytes. Soundness under the conditions of C11."
  },
  {
   "property": "C85",
   "status": "partial",
   "theorems": [
    "C85_library_simulate",
    "C85_library_consistency",
    "C85_simulation_partial"
   ],
   "note": "Proved for classes whose construct_stmt makes statements without primitives of the results of simulate_precommit (otherwise simulate() raises: C75), other parts without primitives (the library's primitives are covered as classes), precommitments that are not None and in a disjunction not all empty, and up to identifiers of 2^32 bytes."
  },
  {
   "property": "C86",
   "status": "partial",
   "theorems": [
    "C86_zero_knowledge_partial",
    "C86_library_classes",
    "C86_documented_class"
   ],
   "note": "Proved for compositions without disjunctions, classes whose constructed statements have neither disjunctions nor primitives and always the same secrets, precommitments that are not None, and a number of random numbers per precommitment that does not depend on them. The honest verifier's challenge is arbitrary but fixed in advance (as in C49 and C58)."
  },
  {
   "property": "C87",
   "status": "partial",
   "theorems": [
    "C87_values_hidden_partial",
    "C87_rest",
    "C87_library_classes"
   ],
   "note": "Proved for provers that have come to the same precommitment with the same choices; that precommitments and choices have the same distribution is C86 for compositions without disjunctions, and depends on the classes. The statements constructed have no primitives (C75), secrets of or-clauses are not used outside of them (C21), precommitments are not None."
  },
  {
   "property": "C88",
   "status": "partial",
   "theorems": [
    "C88_verifier",
    "C88_sampling",
    "C88_functions",
    "C88_extract",
    "C88_false_statement",
    "C88_sha256",
    "C88_inequality",
    "C88_extract_or_partial",
    "C88_signature",
    "C88_power_range_partial",
    "C88_range_partial"
   ],
   "note": "Proved for statements without disjunctions (primitives included), inequalities and signatures; for disjunctions and ranges only if the sub-challenges are as many as the branches and of the right size (false otherwise, C11). The precommitments that provers send are such that equal encodings mean equal values (plain; without framing this fails, C36). Q counts the questions of the prover; the verifier asks two more. The statement is fixed in advance, the verifier starts from a state that is not changed by the prover."
  },
  {
   "property": "C89",
   "status": "proved",
   "theorems": [
    "C89_prover",
    "C89_complete",
    "C89_coupling",
    "C89_zero_knowledge",
    "C89_first_proof",
    "C89_same_probabilities"
   ],
   "note": "The conditions of C58: values satisfy the statement, secrets with one name have one order, groups of prime order for inequalities and signatures. For k > 0 one secret of one representation, inequality or signature proof of the conjunction must move its commitment (spanned), in a group whose points are encoded differently. Completeness is for all statements of C08 if no inequality has drawn the blinder zero. Disjunctions: see C12 and C62."
  },
  {
   "property": "C90",
   "status": "partial",
   "theorems": [
    "C90_verifier",
    "C90_prover",
    "C90_extract",
    "C90_extract_or_partial",
    "C90_false",
    "C90_complete_partial"
   ],
   "note": "Soundness is proved for compositions without disjunctions; with disjunctions under the conditions of C11 on the sub-challenges (false otherwise). The precommitments that provers send are such that equal encodings mean equal values (plain, C88). The methods of the classes do not use sha256; the composition is fixed in advance. Completeness as in C84."
  },
  {
   "property": "C91",
   "status": "partial",
   "theorems": [
    "C91_zero_knowledge_partial",
    "C91_first_proof_partial"
   ],
   "note": "As in C86: conjunctions; the precommitments of the classes hide the values of the secrets; constructed statements without primitives and disjunctions. One proof; the statement is fixed in advance."
  },
  {
   "property": "C92",
   "status": "proved",
   "theorems": [
    "C92_many_proofs"
   ],
   "note": "Statements as in C89 and C91 (no disjunctions). Every proof is made by objects of its own; the sequence of the statements is fixed, but statements may be repeated in it and skipped."
  },
  {
   "property": "C93",
   "status": "partial",
   "theorems": [
    "C93_extract",
    "C93_false_statement",
    "C93_sha256",
    "C93_inequality",
    "C93_extract_or_partial",
    "C93_power_range_partial",
    "C93_signature",
    "C93_user_extract",
    "C93_user_false",
    "C93_user_extract_or_partial"
   ],
   "note": "Proved for conjunctions (also with user-defined primitives), DLNotEqual and signatures. Disjunctions and PowerTwoRange (theorems _partial): only for proofs whose sub-challenges are below the orders, since verify() checks no such thing and is then unsound (C11, C30). Two statements are identified through C16: different points must be printed differently, as points of petlib are; points of pairing groups are printed as numbers of 64 bits, and the theorem about signatures does not need this condition."
  },
  {
   "property": "C94",
   "status": "partial",
   "theorems": [
    "C94_forgery",
    "C94_false",
    "C94_sha256",
    "C94_forgery_or_partial",
    "C94_library_framed",
    "C94_tree_framed",
    "C94_false_any_message"
   ],
   "note": "The proofs seen are of statements as in C92 (no disjunctions); the forged composition is as in C93, with disjunctions only for sub-challenges of the right size (theorem _partial; false otherwise, C11). The message must be new: that the same statement and message have no second proof is false (C39). Someone who gets an exception of prove() gives up (honest provers raise one only for parts of 2^32 bytes, C08 and C84). Precommitments of the simulators are no raw byte strings, which is proved for all statements of the library."
  },
  {
   "property": "C95",
   "status": "partial",
   "theorems": [
    "C95_extract",
    "C95_false_statement",
    "C95_sha256",
    "C95_inequality",
    "C95_extract_or_partial",
    "C95_power_range_partial",
    "C95_signature"
   ],
   "note": "Conditions as in C93 and C94: disjunctions and PowerTwoRange (theorems _partial) only for sub-challenges below the orders (C11, C30); the message must be new; the proofs seen are of statements as in C92. That the signature obtained is one that the issuer has made is a matter of the unforgeability of BBS+ signatures, which is not modelled."
  },
  {
   "property": "C96",
   "status": "partial",
   "theorems": [
    "C96_deserialize",
    "C96_unambiguous",
    "C96_prefix_free",
    "C96_unique_bytes_refuted"
   ],
   "note": "Refuted: one proof is one byte string. For every byte string that is read as a proof there is another one that is read as the same proof. Truth values, floats and keys that are no text are not modelled (errors here). petlib and msgpack are modelled from their formats, not from their code; that a Bn whose sign is neither + nor - is an error is an assumption. Of entries of a map with one key Python keeps the last, the model keeps all and finds the first."
  }
 ]
}