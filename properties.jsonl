{"id": "C01", "title": "Expression evaluation is the weighted sum", "statement": "For an expression built as x0*g0 + x1*g1 + ... + xn*gn (or with wsum_secrets), eval() returns the group element sum of value(xi)*gi when every secret has a value, and raises IncompleteValuesError exactly when some secret has none; wsum_secrets raises ValueError when the two lists have different lengths.", "quantifier": "every number of terms, every group, every list of secrets/values/bases", "why_tests_cant": "unbounded number of terms and all group elements and integer values", "anchors": ["zksk/expr.py:Expression.eval", "zksk/expr.py:Expression.__add__", "zksk/expr.py:wsum_secrets"]}
{"id": "C02", "title": "Adding expressions does not change the operands", "statement": "Evaluating e1 + e2 yields an expression with the terms of e1 followed by those of e2 and leaves e1 and e2 as they were, so that a sub-expression can be reused in several statements.", "quantifier": "every pair of expression objects, including e + e, in every heap of expression objects", "why_tests_cant": "aliasing between objects: depends on the history of operations on shared objects", "anchors": ["zksk/expr.py:Expression.__add__"]}
{"id": "C03", "title": "Modular sum", "statement": "sum_bn_array(arr, m) returns the unique integer in [0, m) congruent to the sum of arr modulo m.", "quantifier": "every list of integers (also negative), every positive modulus", "why_tests_cant": "unbounded lists and integers", "anchors": ["zksk/utils/groups.py:sum_bn_array"]}
{"id": "C04", "title": "Residual challenge completes the or-challenges", "statement": "The residual challenge r computed for sub-challenges cs and global challenge c satisfies sum(cs) + r = c modulo 2^bits and is zero exactly when the sub-challenges already add up to c modulo 2^bits.", "quantifier": "every list of integers, every challenge, every bit length", "why_tests_cant": "unbounded lists and integers", "anchors": ["zksk/composition.py:_find_residual_challenge"]}
{"id": "C05", "title": "Bit decomposition", "statement": "decompose_into_n_bits(v, n) returns n bits, least significant first, whose binary value is v, when 0 <= v < 2^n, and raises otherwise.", "quantifier": "every integer v, every n", "why_tests_cant": "unbounded integers", "anchors": ["zksk/primitives/rangeproof.py:decompose_into_n_bits"]}
{"id": "C06", "title": "Completeness of a discrete-log representation proof (interactive)", "statement": "If the prover's secret values satisfy lhs = sum xi*Gi then, for every randomness and every challenge, the verifier accepts the responses.", "quantifier": "every number of terms, repeated secrets, every group, all secret values, random tapes and challenges", "why_tests_cant": "quantifies over all group elements, randomness and challenges", "anchors": ["zksk/primitives/dlrep.py:DLRepProver", "zksk/primitives/dlrep.py:DLRep.recompute_commitment", "zksk/base.py:Verifier.verify"]}
{"id": "C07", "title": "Completeness for every and/or tree (interactive)", "statement": "For every statement tree built with & and | from discrete-log representations, a prover obtained with get_prover whose real branches hold is accepted by the verifier for every randomness and every challenge.", "quantifier": "every statement tree (any depth and width), all secret values, all random tapes (including the random choice of the or-branch), all challenges", "why_tests_cant": "unbounded trees and all random choices", "anchors": ["zksk/composition.py:AndProver", "zksk/composition.py:OrProver", "zksk/base.py:Verifier.verify"]}
{"id": "C08", "title": "Completeness of non-interactive proofs between two parties", "statement": "A proof returned by stmt.prove(secrets, message) by a prover whose real branches hold is accepted by stmt'.verify(nizk, message) for a statement stmt' that the verifier built independently with the same public points and the same pattern of secrets (names may differ).", "quantifier": "every statement tree including extended primitives, every message, every hash function, every random tape", "why_tests_cant": "unbounded trees, two independent object graphs, all randomness", "anchors": ["zksk/base.py:Prover.get_nizk_proof", "zksk/base.py:Verifier.verify_nizk", "zksk/composition.py:ComposableProofStmt.prove", "zksk/composition.py:ComposableProofStmt.verify"]}
{"id": "C09", "title": "Wrong secrets are rejected", "statement": "In a prime-order group, if a discrete-log representation prover runs with values that do not satisfy the equation, the verifier rejects for every challenge that is not a multiple of the group order.", "quantifier": "all statements, all wrong assignments, all randomness, all challenges", "why_tests_cant": "a test can only try a few wrong values and challenges", "anchors": ["zksk/primitives/dlrep.py:DLRepProver.compute_response", "zksk/primitives/dlrep.py:DLRep.recompute_commitment"]}
{"id": "C10", "title": "Special soundness of and-trees, with shared secrets", "statement": "From two accepting conversations with the same commitment and challenges that differ modulo the prime group order, one integer per secret can be computed such that every discrete-log equation of the conjunction holds with these values, so re-occurring secrets have one common value.", "quantifier": "every and-tree, all adversarial commitments and responses", "why_tests_cant": "quantifies over all adversarial messages", "anchors": ["zksk/composition.py:AndVerifier.check_responses_consistency", "zksk/primitives/dlrep.py:DLRepVerifier.check_responses_consistency"]}
{"id": "C11", "title": "An accepted or-proof needs a true branch", "statement": "A verifier accepts a proof of an or-statement only from a prover who knows secrets for at least one of the branches; in particular, from two accepting conversations with the same commitment and different challenges, a witness for some branch can be computed.", "quantifier": "every or-statement, every adversarial challenge list and response", "why_tests_cant": "adversarial shapes: the list of sub-challenges is chosen by the prover", "anchors": ["zksk/composition.py:OrProofStmt.recompute_commitment", "zksk/composition.py:_find_residual_challenge"]}
{"id": "C12", "title": "An or-proof hides which branch is real", "statement": "The published sub-challenges of an or-proof do not tell which branch was really proved and which ones were simulated.", "quantifier": "every or-statement, every random tape", "why_tests_cant": "a distribution-level claim over all randomness", "anchors": ["zksk/composition.py:OrProver.compute_response", "zksk/composition.py:_find_residual_challenge"]}
{"id": "C13", "title": "Simulated transcripts satisfy the verification equation", "statement": "stmt.simulate() returns a transcript on which verify_simulation_consistency returns True, without using any secret value.", "quantifier": "every statement tree, every random tape, every environment of secret values", "why_tests_cant": "unbounded trees and all randomness", "anchors": ["zksk/composition.py:ComposableProofStmt.simulate", "zksk/composition.py:ComposableProofStmt.verify_simulation_consistency", "zksk/composition.py:OrProofStmt.simulate_proof", "zksk/composition.py:AndProofStmt.simulate_proof", "zksk/primitives/dlrep.py:DLRep.simulate_proof"]}
{"id": "C14", "title": "Honest-verifier zero knowledge of discrete-log representation proofs", "statement": "For a fixed challenge, the transcripts of the honest prover and those of the simulator are in bijection (same set of (commitment, responses), each obtained from exactly one choice of randomizers in [0, order)).", "quantifier": "all statements, all witnesses, all challenges, all randomizers", "why_tests_cant": "a statement about the whole distribution", "anchors": ["zksk/primitives/dlrep.py:DLRepProver", "zksk/primitives/dlrep.py:DLRep.simulate_proof"]}
{"id": "C15", "title": "A simulated transcript only verifies if the hash happens to match", "statement": "verify() of a transcript produced by simulate() returns True exactly when the simulator's challenge equals the hash of statement, precommitment and commitment; otherwise it returns False.", "quantifier": "every statement tree and transcript", "why_tests_cant": "all transcripts, all hash functions", "anchors": ["zksk/base.py:Verifier.verify_nizk", "zksk/composition.py:ComposableProofStmt.simulate"]}
{"id": "C16", "title": "A proof is bound to its statement", "statement": "If verify accepts, the statement hash in the proof equals the hash of the verifier's own statement; verify raises StatementMismatch otherwise, before looking at responses. Statements with the same identifier have the same structure, bases and left-hand sides and the same pattern of secrets, so they describe the same relation.", "quantifier": "all statements and proofs", "why_tests_cant": "quantifies over all pairs of statements", "anchors": ["zksk/composition.py:ComposableProofStmt.check_statement", "zksk/composition.py:ComposableProofStmt.get_proof_id", "zksk/primitives/dlrep.py:DLRep.get_proof_id"]}
{"id": "C17", "title": "Secret names do not matter", "statement": "Renaming the secrets of a statement injectively changes neither its identifier nor which proofs it accepts. With the same random choices, prove(), verify(), simulate() and the interactive protocol return the same values or raise the same exceptions.", "quantifier": "every statement tree, every injective renaming", "why_tests_cant": "all renamings, unbounded trees", "anchors": ["zksk/composition.py:_assign_secret_ids", "zksk/composition.py:ComposableProofStmt.get_proof_id", "docs/usage.rst"]}
{"id": "C18", "title": "A signature proof is bound to its message", "statement": "If the same proof is accepted for two different messages, then two different inputs of the hash function with the same digest have been exhibited.", "quantifier": "all statements, proofs and pairs of messages", "why_tests_cant": "all messages and proofs", "anchors": ["zksk/base.py:build_fiat_shamir_challenge", "zksk/base.py:Verifier.verify_nizk"]}
{"id": "C19", "title": "The challenge hash input determines what is hashed", "statement": "The byte string hashed into the non-interactive challenge determines the statement identifier, the precommitment, the commitment and the message.", "quantifier": "all statements, precommitments, commitments, messages", "why_tests_cant": "injectivity of a variable-length encoding", "anchors": ["zksk/base.py:build_fiat_shamir_challenge", "zksk/composition.py:ComposableProofStmt.prehash_statement"]}
{"id": "C20", "title": "Re-occurring secrets get equal responses", "statement": "The verifier accepts a conjunction only if all occurrences of one secret outside or-branches have the same response; otherwise it raises ValidationError.", "quantifier": "every tree, every adversarial response", "why_tests_cant": "all adversarial responses and unbounded trees", "anchors": ["zksk/base.py:Verifier.pre_verification_validation", "zksk/composition.py:AndVerifier.check_responses_consistency"]}
{"id": "C21", "title": "Secrets re-occurring inside and outside an or-proof are refused", "statement": "Proving a conjunction raises InvalidSecretsError exactly when some secret occurs in an or-clause of the conjunction and also outside of that clause; a verifier never accepts such a statement for values that differ.", "quantifier": "every tree", "why_tests_cant": "unbounded trees, counts of occurrences", "anchors": ["zksk/composition.py:AndProofStmt.validate_secrets_reoccurence", "zksk/composition.py:OrProofStmt.validate_secrets_reoccurence", "docs/usage.rst"]}
{"id": "C22", "title": "Shared secrets need groups of one order", "statement": "Proving a composed statement raises GroupMismatchError exactly when one secret is used with bases of groups with different orders; a verifier never accepts a shared secret across such groups unless one integer fits both.", "quantifier": "every tree, all groups", "why_tests_cant": "unbounded trees", "anchors": ["zksk/composition.py:_CommonComposedStmtMixin.validate_group_orders", "docs/usage.rst"]}
{"id": "C23", "title": "Infix composition is flat and associative", "statement": "(a & b) & c and a & (b & c) have the same subproofs in the same order and the same identifier; likewise for |; no conjunction is a direct child of the result of & when the operands are flat.", "quantifier": "all statements", "why_tests_cant": "all trees", "anchors": ["zksk/composition.py:ComposableProofStmt.__and__", "zksk/composition.py:ComposableProofStmt.__or__"]}
{"id": "C24", "title": "A branch marked simulated is never the real one", "statement": "The branch executed by an or-prover is one that is not marked simulated and for which a prover could be built; get_prover returns None only if there is no such branch.", "quantifier": "every or-statement, every sequence of random choices", "why_tests_cant": "all random choices", "anchors": ["zksk/composition.py:OrProofStmt.get_prover"]}
{"id": "C25", "title": "Secrets for one branch are enough for an or-proof", "statement": "If values for all the secrets of one non-simulated branch are supplied, proving the or-statement succeeds whatever branch the random choice tries first.", "quantifier": "every or-statement, every random choice", "why_tests_cant": "depends on the random choice", "anchors": ["zksk/composition.py:OrProofStmt.get_prover", "zksk/composition.py:AndProofStmt.get_prover", "docs/usage.rst"]}
{"id": "C26", "title": "A statement can be proved repeatedly", "statement": "Calling prove() again on a statement object that has already been proved succeeds again.", "quantifier": "every statement, every history of prove calls", "why_tests_cant": "depends on the history of calls on one object", "anchors": ["zksk/primitives/dlrep.py:DLRep.get_prover", "zksk/composition.py:ComposableProofStmt.set_simulated", "zksk/composition.py:OrProofStmt.get_prover"]}
{"id": "C27", "title": "Inequality of discrete logarithms: completeness", "statement": "If H0 = x h0 and H1 != x h1 in a prime-order group, proving DLNotEqual and verifying it succeeds unless the random blinder is zero; if H1 = x h1, verification always raises ValidationError.", "quantifier": "all points, all secrets, all random tapes, binding or not", "why_tests_cant": "all randomness", "anchors": ["zksk/primitives/dl_notequal.py:DLNotEqual"]}
{"id": "C28", "title": "Inequality of discrete logarithms: soundness", "statement": "From two accepting conversations with the same precommitment and commitment and different challenges one computes x with H0 = x h0 and H1 != x h1 (h0 not the neutral element).", "quantifier": "all adversarial messages", "why_tests_cant": "all adversarial messages", "anchors": ["zksk/primitives/dl_notequal.py:DLNotEqual.construct_stmt", "zksk/primitives/dl_notequal.py:DLNotEqual.validate"]}
{"id": "C29", "title": "Power-of-two range proof: completeness", "statement": "If com = x g + r h and 0 <= x < 2^n, n >= 2, proving PowerTwoRangeStmt and verifying it with an independently built statement succeeds.", "quantifier": "all points, values, number of bits and random tapes", "why_tests_cant": "all values and randomness", "anchors": ["zksk/primitives/rangeproof.py:PowerTwoRangeStmt"]}
{"id": "C30", "title": "Power-of-two range proof: soundness", "statement": "An accepted proof of PowerTwoRangeStmt implies that the committed value is in [0, 2^n): a statement whose commitment is not to such a value has no accepting proof that an honest run on true bit statements can yield.", "quantifier": "all adversarial precommitments", "why_tests_cant": "adversarial shapes of the precommitment", "anchors": ["zksk/primitives/rangeproof.py:PowerTwoRangeStmt.validate", "zksk/primitives/rangeproof.py:PowerTwoRangeStmt.construct_stmt"]}
{"id": "C31", "title": "Range proofs hide the value", "statement": "The transcript of a range proof does not reveal the committed value.", "quantifier": "all values and random tapes", "why_tests_cant": "distribution-level claim", "anchors": ["zksk/primitives/rangeproof.py:PowerTwoRangeStmt", "zksk/composition.py:OrProver.compute_response"]}
{"id": "C32", "title": "Generic ranges reduce to two power-of-two ranges", "statement": "For a < b, with n and offset as computed by RangeStmt, a <= x < b holds exactly when both x - a and x - a + offset are in [0, 2^n); for b <= a no x satisfies both. Every x in [a, b) can be proved.", "quantifier": "all integers a, b, x", "why_tests_cant": "unbounded integers, boundary cases", "anchors": ["zksk/primitives/rangeproof.py:GenericRangeStmtMaker.__call__"]}
{"id": "C33", "title": "BBS+ signatures verify", "statement": "A signature obtained through commit, sign and obtain_signature verifies under the public key for the committed messages, blinded or not.", "quantifier": "all keys, message lists, random tapes", "why_tests_cant": "all randomness and message lists", "anchors": ["zksk/primitives/bbsplus.py:BBSPlusSecretKey.sign", "zksk/primitives/bbsplus.py:BBSPlusSignatureCreator", "zksk/primitives/bbsplus.py:BBSPlusSignature.verify_signature"]}
{"id": "C34", "title": "A BBS+ signature is bound to the whole message list", "statement": "If verify_signature accepts the same signature for two message lists then the lists commit to the same element over the key's bases; in particular no message is ignored.", "quantifier": "all keys, signatures, message lists of any length", "why_tests_cant": "message lists of any length, including longer than the key supports", "anchors": ["zksk/primitives/bbsplus.py:BBSPlusSignature.verify_signature", "zksk/pairings.py:G1Group.wsum"]}
{"id": "C35", "title": "Proof of knowledge of a BBS+ signature: completeness and soundness", "statement": "A prover holding a valid signature is accepted; from two accepting conversations one computes a valid signature on the extracted messages or a non-trivial relation between two bases.", "quantifier": "all keys, messages, adversarial transcripts", "why_tests_cant": "all adversarial messages", "anchors": ["zksk/primitives/bbsplus.py:BBSPlusSignatureStmt"]}
{"id": "C36", "title": "Serialization round-trip", "statement": "NIZK.deserialize(nizk.serialize()) has the same challenge, responses, precommitment and statement hash, and verifies exactly when the original does.", "quantifier": "all proofs", "why_tests_cant": "unbounded nested values", "anchors": ["zksk/base.py:NIZK.serialize", "zksk/base.py:NIZK.deserialize", "zksk/pairings.py:pt_enc", "zksk/pairings.py:pt_dec"]}
{"id": "C37", "title": "Custom extended primitives work inside compositions", "statement": "A primitive that only overrides construct_stmt can be used, proved and simulated as a member of conjunctions and disjunctions (docs/new_primitives.rst).", "quantifier": "all such primitives, all compositions", "why_tests_cant": "all compositions and histories", "anchors": ["zksk/extended.py:ExtendedProofStmt", "zksk/composition.py:OrProver.precommit", "docs/new_primitives.rst"]}
{"id": "C38", "title": "Two responses to one commitment reveal the secrets", "statement": "If compute_response is called twice after one commit with challenges that differ modulo the prime order, the two response lists determine every secret value modulo the order; after a new commit the randomizers are drawn afresh.", "quantifier": "all statements, values, randomness, challenge pairs", "why_tests_cant": "all histories of calls on a prover object", "anchors": ["zksk/primitives/dlrep.py:DLRepProver.compute_response", "zksk/primitives/dlrep.py:DLRepProver.internal_commit"]}
{"id": "C39", "title": "An accepted proof cannot be changed into another accepted proof", "statement": "Given an accepted proof, no different tuple of challenge and responses with the same statement hash is accepted.", "quantifier": "all proofs", "why_tests_cant": "all adversarial modifications", "anchors": ["zksk/primitives/dlrep.py:DLRep.recompute_commitment", "zksk/base.py:Verifier.verify_nizk"]}
{"id": "C40", "title": "Generators are a deterministic function of the seed", "statement": "make_generators(n, seed=s) is determined by s and n, is a prefix of make_generators(m, seed=s) for n <= m, and two different seeds do not yield the same generators; without a seed every generator is the hash of fresh random bytes.", "quantifier": "all seeds and counts", "why_tests_cant": "unbounded counts", "anchors": ["zksk/utils/groups.py:make_generators", "zksk/utils/groups.py:get_random_point"]}
{"id": "C41", "title": "Random numbers stay in range", "statement": "get_random_num(bits) is in [0, 2^bits), and the verifier's interactive challenge is in [0, 2^128); every response of the discrete-log prover is in [0, order).", "quantifier": "all random tapes", "why_tests_cant": "all randomness", "anchors": ["zksk/utils/groups.py:get_random_num", "zksk/base.py:Verifier.send_challenge", "zksk/primitives/dlrep.py:DLRepProver.compute_response"]}
{"id": "C42", "title": "The two proofs of one prover are independent", "statement": "Two provers obtained from one statement with different secret dictionaries each use their own values; two proofs produced by one or-prover do not reveal the real branch when compared.", "quantifier": "all histories of get_prover and get_nizk_proof", "why_tests_cant": "histories of calls on shared mutable objects", "anchors": ["zksk/composition.py:OrProver.setup_simulations", "zksk/primitives/dlrep.py:DLRep.get_prover"]}
{"id": "C43", "title": "Secrets with the same name are the same secret for the verifier", "statement": "If two occurrences in the verifier's statement have the same identifier index in get_proof_id, the verifier checks that their responses are equal.", "quantifier": "all trees and environments of secret values", "why_tests_cant": "depends on the mutable value attribute of distinct objects", "anchors": ["zksk/expr.py:Secret.__eq__", "zksk/primitives/dlrep.py:DLRepVerifier.check_responses_consistency", "zksk/composition.py:_assign_secret_ids"]}
{"id": "C44", "title": "Extended statements can be run interactively", "statement": "For every extended primitive, the interactive protocol (precommit, process_precommitment, commit, send_challenge, compute_response, verify) runs to a verdict, whatever kind of statement construct_stmt returns.", "quantifier": "all extended primitives", "why_tests_cant": "all subclasses", "anchors": ["zksk/extended.py:ExtendedVerifier.send_challenge", "zksk/composition.py:AndVerifier.send_challenge", "zksk/base.py:Verifier.send_challenge"]}
{"id": "C45", "title": "A range-only proof can be verified by somebody else", "statement": "A proof of RangeOnlyStmt(a, b, x) can be verified with a statement that the verifier constructs without knowing x.", "quantifier": "all ranges and values", "why_tests_cant": "two independent parties", "anchors": ["zksk/primitives/rangeproof.py:GenericRangeOnlyStmtMaker.__call__"]}
{"id": "C46", "title": "Inequality of discrete logarithms in two groups", "statement": "When h lies in another group (of the same order) than g, an accepted DLNotEqual proof still shows that log_g(H0) differs from log_h(H1).", "quantifier": "all pairs of groups and all provers", "why_tests_cant": "adversarial provers in every pair of groups", "anchors": ["zksk/primitives/dl_notequal.py:DLNotEqual.validate", "zksk/primitives/dl_notequal.py:DLNotEqual.simulate_precommit"]}
{"id": "C47", "title": "Values of a range proof can be supplied when proving", "statement": "A range statement built from secrets without values can be proven with prove({x: value, r: randomizer}), as documented for every statement.", "quantifier": "all range statements, values and secrets", "why_tests_cant": "histories in which values are set before or after construction", "anchors": ["zksk/primitives/rangeproof.py:PowerTwoRangeStmt.__init__", "zksk/primitives/rangeproof.py:PowerTwoRangeStmt.precommit"]}
{"id": "C48", "title": "A mark set with set_simulated survives composition", "statement": "If a statement is marked as to be simulated and then used as an operand of |, no part of it is proven for real.", "quantifier": "all statements", "why_tests_cant": "order of marking and composing", "anchors": ["zksk/composition.py:ComposableProofStmt.__or__", "zksk/composition.py:ComposableProofStmt.set_simulated"]}
{"id": "C49", "title": "Honest conversations of conjunctions can be simulated", "statement": "For a statement without disjunctions (conjunctions of representations and inequality proofs with shared secrets), for every challenge, commit() followed by compute_response(c) yields the same commitments and responses as simulate_proof(challenge=c), up to a bijection of the random numbers that does not depend on them.", "quantifier": "all conjunction trees, secrets, values, challenges and random numbers", "why_tests_cant": "distributions over all random numbers", "anchors": ["zksk/composition.py:AndProofStmt.simulate_proof", "zksk/composition.py:AndProver.internal_commit", "zksk/composition.py:AndProofStmt.get_randomizers", "zksk/primitives/dlrep.py:DLRep.simulate_proof"]}
{"id": "C50", "title": "Inequalities and ranges can be proven in every group of a pairing", "statement": "DLNotEqual, PowerTwoRangeStmt and RangeStmt over points of any group offered by the library (G1, G2, GT) can be proven and verified.", "quantifier": "all points, values and groups", "why_tests_cant": "all groups", "anchors": ["zksk/pairings.py:AdditivePoint", "zksk/primitives/dl_notequal.py:DLNotEqual.precommit", "zksk/primitives/rangeproof.py:PowerTwoRangeStmt.construct_stmt"]}
{"id": "C51", "title": "The verdict does not depend on earlier uses of the statement object", "statement": "verify() of one proof returns the same verdict on a new statement object and on one that has been used before: for proofs, for verification of any other (good or bad) proofs, for interactive runs, for simulations, with changed flags and other values of the secrets in between.", "quantifier": "all statements, proofs, messages and sequences of calls", "why_tests_cant": "unbounded histories of calls on mutable objects", "anchors": ["zksk/base.py:Verifier.verify_nizk", "zksk/extended.py:ExtendedVerifier.process_precommitment", "zksk/composition.py:ComposableProofStmt.verify"]}
{"id": "C52", "title": "Statements that mix groups, and compositions of fewer than two parts, are never verified", "statement": "DLRep() with bases from different groups raises InvalidExpression, AndProofStmt() and OrProofStmt() with fewer than two parts raise ValueError. A left-hand side from another group than the bases is not refused by the constructor, but verify() of such a statement, or of a composition containing it anywhere, raises for every proof and never returns a verdict.", "quantifier": "all expressions, points, compositions, proofs and messages", "why_tests_cant": "unbounded expressions, nesting and (malformed) proofs", "anchors": ["zksk/primitives/dlrep.py:DLRep.__init__", "zksk/primitives/dlrep.py:DLRep.recompute_commitment", "zksk/composition.py:AndProofStmt.__init__", "zksk/composition.py:OrProofStmt.__init__"]}
{"id": "C53", "title": "One randomizer per secret, and the given one if there is one", "statement": "After prover.internal_commit(randomizers_dict) all occurrences of one secret outside of disjunctions, at any depth of conjunctions and constructed primitives, have been committed to with one randomizer; a randomizer given in the dictionary is the one that is used, also if the dictionary lacks other secrets.", "quantifier": "all statements, provers, dictionaries and random choices", "why_tests_cant": "unbounded nesting and random choices", "anchors": ["zksk/composition.py:AndProver.internal_commit", "zksk/composition.py:AndProofStmt.get_randomizers", "zksk/primitives/dlrep.py:DLRepProver.internal_commit", "zksk/composition.py:ComposableProofStmt.update_randomizers"]}
{"id": "C54", "title": "Generic range proofs: soundness", "statement": "Two accepted answers of one prover to one first message of RangeStmt(com, g, h, a, b, ...) give an opening of com to a value u with a <= u < b, or a relation between g and h.", "quantifier": "all groups, points, bounds and transcripts", "why_tests_cant": "cryptographic soundness over all transcripts", "anchors": ["zksk/primitives/rangeproof.py:GenericRangeStmtMaker.__call__", "zksk/primitives/rangeproof.py:PowerTwoRangeStmt.validate", "zksk/composition.py:OrProofStmt.recompute_commitment"]}
{"id": "C55", "title": "Wrong values in any part of a conjunction are rejected", "statement": "stmt.prove(values, message), called on a conjunction with values that do not satisfy the equation of some part at any depth, returns a proof that no verifier whose statement has that equation at the same place accepts, unless the challenge is zero modulo the group order or the hash inputs of prover and verifier collide.", "quantifier": "all conjunctions, next to any other statements, values, messages, random choices and verifier statements with that equation", "why_tests_cant": "rejection for all wrong values, nestings and random choices; tests check a few", "anchors": ["zksk/composition.py:ComposableProofStmt.prove", "zksk/composition.py:AndProver.compute_response", "zksk/composition.py:AndProofStmt.recompute_commitment", "zksk/base.py:Verifier.verify_nizk", "zksk/primitives/dlrep.py:DLRepProver.compute_response"]}
{"id": "C56", "title": "A signature that was issued can be proven", "statement": "After BBSPlusKeypair.generate, creator.commit(messages, zkp), sk.sign and creator.obtain_signature, the proof of BBSPlusSignatureStmt made from the signature and the messages is accepted by every verifier with the public key and a statement of the same number of secrets.", "quantifier": "all bilinear pairs, numbers of messages, messages, blinded and not, random choices, verifier statements", "why_tests_cant": "the whole life of a credential, for all messages and random choices", "anchors": ["zksk/primitives/bbsplus.py:BBSPlusKeypair.generate", "zksk/primitives/bbsplus.py:BBSPlusSignatureCreator.commit", "zksk/primitives/bbsplus.py:BBSPlusSecretKey.sign", "zksk/primitives/bbsplus.py:BBSPlusSignatureCreator.obtain_signature", "zksk/primitives/bbsplus.py:BBSPlusSignatureStmt.construct_stmt"]}
{"id": "C57", "title": "An accepted blinding shows knowledge of the messages", "statement": "Two proofs for one blinded commitment that UserCommitmentMessage.verify_blinding(pk) accepts, from one first message with different challenges, give a blinding factor and messages that open the commitment; every signature of the issuer on this commitment is valid for these messages.", "quantifier": "all keys, commitments, proofs with any numbers of responses, random choices of the issuer", "why_tests_cant": "cryptographic soundness over all transcripts", "anchors": ["zksk/primitives/bbsplus.py:UserCommitmentMessage.verify_blinding", "zksk/primitives/bbsplus.py:BBSPlusSecretKey.sign", "zksk/primitives/bbsplus.py:BBSPlusSignature.verify_signature"]}
{"id": "C58", "title": "Whole conversations, precommitments included, are zero-knowledge", "statement": "For a true conjunction of DLReps, DLNotEquals and BBSPlusSignatureStmts whose secrets are supplied, and for every challenge: the prover always answers, and its precommitment, commitment and response together have the same distribution as those of prepare_simulate_proof and simulate_proof, which use no secret value.", "quantifier": "all worlds, conjunctions (nested, shared secrets), prime orders, secret values, values of the simulator's Secret objects, challenges, random choices", "why_tests_cant": "equality of distributions over all random choices", "anchors": ["zksk/extended.py:ExtendedProver.precommit", "zksk/primitives/dl_notequal.py:DLNotEqual.precommit", "zksk/primitives/dl_notequal.py:DLNotEqual.simulate_precommit", "zksk/primitives/bbsplus.py:BBSPlusSignatureStmt.precommit", "zksk/primitives/bbsplus.py:BBSPlusSignatureStmt.simulate_precommit", "zksk/composition.py:AndProver.internal_commit", "zksk/composition.py:AndProofStmt.simulate_proof"]}
{"id": "C59", "title": "Interactive runs are about one statement", "statement": "A verifier sends a challenge only if the statement hash it received is that of its own statement (precommitment included), and raises StatementMismatch otherwise; so every verdict of SigmaProtocol.verify and of verify_simulation_consistency is about one statement, up to collisions of the hash function.", "quantifier": "all worlds, statements, commitments, states, provers", "why_tests_cant": "all statements and transcripts, including adversarial ones", "anchors": ["zksk/base.py:Verifier.send_challenge", "zksk/composition.py:AndVerifier.send_challenge", "zksk/extended.py:ExtendedVerifier.send_challenge", "zksk/composition.py:ComposableProofStmt.check_statement", "zksk/composition.py:ComposableProofStmt.verify_simulation_consistency", "zksk/utils/debug.py:SigmaProtocol.verify"]}
{"id": "C60", "title": "Statements built from the same parts do not disturb each other", "statement": "A statement object is proved and verified in the same way, with the same result or exception for the same values and random choices, whether or not another statement that was built from the same Python objects has been proved or verified before.", "quantifier": "all pairs of statements, values, messages, random choices and object states", "why_tests_cant": "aliasing between unboundedly many mutable objects", "anchors": ["zksk/composition.py:AndProofStmt.__init__", "zksk/composition.py:OrProofStmt.__init__", "zksk/composition.py:OrProofStmt.get_prover", "zksk/primitives/dlrep.py:DLRep.get_prover", "zksk/composition.py:AndProofStmt.get_prover"]}
{"id": "C61", "title": "A statement object may occur several times in a tree", "statement": "A statement that is built with a variable used several times, as in (m & x) | (m & v), is proved and verified like the statement in which every use of the variable is written out: same result or exception for the same random choices. Building a statement does not change the parts.", "quantifier": "all expressions over statement objects, object states, values, messages, proofs and random choices", "why_tests_cant": "aliasing between unboundedly many mutable objects", "anchors": ["zksk/composition.py:AndProofStmt.__init__", "zksk/composition.py:OrProofStmt.__init__", "zksk/composition.py:ComposableProofStmt.__and__", "zksk/composition.py:ComposableProofStmt.__or__", "zksk/composition.py:OrProver.precommit", "zksk/extended.py:ExtendedProofStmt.full_construct_stmt"]}
{"id": "C62", "title": "Proofs depend on the branches chosen, not on the values of secrets", "statement": "Two provers of one composition of DLReps that have values for the same secrets but different values, and the same random choices until get_prover() returns, hold equal prover objects (the same branches and simulations); after that, their commitments and responses have the same distribution for every challenge, and so have the results of get_nizk_proof(). So an or-proof shows no more than which branches were chosen, whatever is known about the values.", "quantifier": "all worlds, compositions of DLReps (nested), pairs of witnesses, challenges, messages, random choices", "why_tests_cant": "equality of distributions over all random choices and all pairs of witnesses", "anchors": ["zksk/composition.py:OrProofStmt.get_prover", "zksk/composition.py:OrProver.setup_simulations", "zksk/composition.py:OrProver.internal_commit", "zksk/composition.py:OrProver.compute_response", "zksk/composition.py:AndProver.internal_commit", "zksk/primitives/dlrep.py:DLRepProver.internal_commit", "zksk/base.py:Prover.get_nizk_proof"]}
{"id": "C63", "title": "Wrapped points of bilinear groups behave additively", "statement": "In the three groups of a BilinearGroupPair, n * p is p added n times (n = 0 included, where bplib's power of GT elements is unusable), negative and large multiples are as expected, sum() and wsum() are the sums they are named after, pair() is bilinear. The points of one pair object satisfy everything that the other theorems assume of a group.", "quantifier": "all bplib groups that satisfy the usual laws for nonzero exponents, points, integers, lists", "why_tests_cant": "all integers and points; the laws for all exponents follow from those for nonzero ones", "anchors": ["zksk/pairings.py:AdditivePoint.__mul__", "zksk/pairings.py:AdditivePoint.__add__", "zksk/pairings.py:G1Point.pair", "zksk/pairings.py:G1Point.__sub__", "zksk/pairings.py:GTGroup.wsum", "zksk/pairings.py:G1Group.__eq__", "zksk/pairings.py:GTGroup.generator"]}
{"id": "C64", "title": "Group pair objects and points that are sent", "statement": "A point that is encoded and decoded equals the original, and can be used in its place. BilinearGroupPair(bp_group) is a group pair over the given BpGroup.", "quantifier": "all points, group pair objects, given groups", "why_tests_cant": "all points and later operations on them", "anchors": ["zksk/pairings.py:pt_enc", "zksk/pairings.py:pt_dec", "zksk/pairings.py:BilinearGroupPair.__init__", "zksk/pairings.py:G1Group.__eq__", "zksk/primitives/bbsplus.py:BBSPlusSignatureStmt.construct_stmt"]}
{"id": "C65", "title": "Generated names of secrets are unique", "statement": "Two Secret objects that are made without a name have different names. (Statements identify secrets by name; the other properties assume that same-named secrets are the same object.)", "quantifier": "all programs that make and drop Secret objects, all addresses, interleaved with given names", "why_tests_cant": "depends on memory addresses and on the hash function", "anchors": ["zksk/expr.py:Secret.__init__", "zksk/expr.py:Secret._generate_unique_name", "zksk/expr.py:Secret.__hash__"]}
{"id": "C66", "title": "A false statement is accepted for at most one challenge", "statement": "Whatever precommitment, commitment and answers a prover of a false statement sends, at most one of the 2^128 challenges of the verifier leads to acceptance (in groups of prime order of at least 128 bits). The same for an inequality of equal logarithms.", "quantifier": "all worlds, statements, precommitments, commitments, answers (functions of the challenge), random choices of the verifier", "why_tests_cant": "a bound on the probability of success of every cheating prover", "anchors": ["zksk/base.py:Verifier.send_challenge", "zksk/base.py:Verifier.verify", "zksk/utils/groups.py:get_random_num", "zksk/consts.py:CHALLENGE_LENGTH", "zksk/composition.py:AndVerifier.check_responses_consistency", "zksk/primitives/dlrep.py:DLRepVerifier.check_responses_consistency", "zksk/primitives/dl_notequal.py:DLNotEqual.validate"]}
{"id": "C67", "title": "A verifier answers every message", "statement": "Whatever proof object verify() is given, it returns True or False or raises StatementMismatch, ValidationError or InconsistentChallengeError. No other exception leaves it.", "quantifier": "all worlds, statements, proof objects (challenge, responses, precommitment and statement hash of any form), messages", "why_tests_cant": "proof objects are arbitrary trees of values under the control of the other party", "anchors": ["zksk/base.py:Verifier.verify_nizk", "zksk/base.py:Verifier.pre_verification_validation", "zksk/composition.py:OrProofStmt.recompute_commitment", "zksk/composition.py:AndVerifier.process_precommitment", "zksk/composition.py:OrVerifier.check_responses_consistency", "zksk/primitives/dlrep.py:DLRepVerifier.check_responses_consistency", "zksk/extended.py:ExtendedVerifier.process_precommitment", "zksk/primitives/rangeproof.py:PowerTwoRangeStmt.validate"]}
{"id": "C68", "title": "Proving and verifying touch no other secrets", "statement": "verify() changes the value of no Secret object and uses no randomness. A successful prove() changes the values of no Secret objects except those in the given dictionary and the auxiliary ones the primitives of the statement created for themselves; afterwards those in the dictionary have the given values, unless the statement is a single representation, which leaves them as they were.", "quantifier": "all worlds, statements, dictionaries (one value per name and object), messages, process states, proof objects", "why_tests_cant": "says what does not change, for all Secret objects of the process", "anchors": ["zksk/composition.py:ComposableProofStmt.prove", "zksk/composition.py:ComposableProofStmt.verify", "zksk/composition.py:_CommonComposedStmtMixin.update_secret_values", "zksk/extended.py:ExtendedProofStmt.get_prover", "zksk/primitives/dlrep.py:DLRep.get_prover", "zksk/primitives/dl_notequal.py:DLNotEqual.precommit", "zksk/primitives/rangeproof.py:PowerTwoRangeStmt.precommit"]}
{"id": "C69", "title": "A verifier object can be used again", "statement": "What a verifier object was used for before (proofs it accepted, rejected, or refused with an exception) has no influence on later answers: it returns the same verdict or raises the same exception as a verifier object just created; in particular it accepts honest proofs.", "quantifier": "all worlds, statements, sequences of earlier uses of the verifier object, proof objects, messages, states", "why_tests_cant": "arbitrary sequences of uses of one object", "anchors": ["zksk/base.py:Verifier.verify_nizk", "zksk/composition.py:AndVerifier.process_precommitment", "zksk/composition.py:OrVerifier.process_precommitment", "zksk/extended.py:ExtendedVerifier.process_precommitment", "zksk/extended.py:ExtendedProofStmt.full_construct_stmt", "zksk/extended.py:ExtendedProofStmt.get_proof_id"]}
{"id": "C70", "title": "Proofs by holders of different secrets or signatures cannot be told apart", "statement": "Two provers of true conjunctions of DLReps, DLNotEquals and BBSPlusSignatureStmts, each with their own secret values, signatures and names of secrets, who can both talk to a verifier with one and the same statement (whose keys have a usable third generator): for every challenge their conversations, precommitments included, have the same distribution, and for every message so have the non-interactive proofs that prove() returns. In particular presentations of two BBS+ signatures, or two presentations of one, cannot be linked.", "quantifier": "all worlds with prime orders, pairs of conjunctions (nested, shared secrets), secret values, signatures, names, challenges, messages, random choices", "why_tests_cant": "equality of distributions over all random choices", "anchors": ["zksk/base.py:Prover.get_nizk_proof", "zksk/composition.py:ComposableProofStmt.prove", "zksk/extended.py:ExtendedProver.precommit", "zksk/primitives/bbsplus.py:BBSPlusSignatureStmt.precommit", "zksk/primitives/dl_notequal.py:DLNotEqual.precommit", "zksk/composition.py:ComposableProofStmt.prehash_statement"]}
{"id": "C71", "title": "No public key of an issuer makes presentations linkable", "statement": "Whatever the public key of the issuer, proofs of possession of two different signatures under it cannot be told apart.", "quantifier": "all public keys, signatures, random choices", "why_tests_cant": "a malicious issuer chooses the key", "anchors": ["zksk/primitives/bbsplus.py:BBSPlusSignatureStmt.precommit", "zksk/primitives/bbsplus.py:BBSPlusPublicKey", "zksk/primitives/bbsplus.py:BBSPlusSignatureStmt.construct_stmt"]}
{"id": "C72", "title": "A failed attempt leaves no trace", "statement": "After any number of failed calls on a statement object (get_prover() returned None, or an exception was raised at any point of prove()), with any values and in any states of the process, a call of prove() that gives the values of all secrets returns the same proof, or raises the same exception, as it would have done before them.", "quantifier": "all statements, numbers of failed calls, dictionaries, process states, messages", "why_tests_cant": "arbitrary sequences of failed calls", "anchors": ["zksk/composition.py:AndProofStmt.get_prover", "zksk/composition.py:OrProofStmt.get_prover", "zksk/primitives/dlrep.py:DLRep.get_prover", "zksk/composition.py:ComposableProofStmt.prove"]}
{"id": "C73", "title": "Primitives defined by users are complete", "statement": "Take any subclass of ExtendedProofStmt with methods precommit, construct_stmt, simulate_precommit and validate of its own, used on its own, whose constructed statement holds for the prover's values. Then prove() returns a proof, and verify() of an object of a class of the same name accepts it if its construct_stmt makes of the precommitment a statement of the same form (with its own secrets) and its validate raises nothing. Simulated transcripts of classes that override simulate_precommit pass verify_simulation_consistency(). The library's primitives are such classes.", "quantifier": "all classes (arbitrary methods), statements constructed, values, process states, messages", "why_tests_cant": "arbitrary user code in the four methods", "anchors": ["zksk/extended.py:ExtendedProofStmt", "zksk/extended.py:ExtendedProver", "zksk/extended.py:ExtendedVerifier", "docs/new_primitives.rst"]}
{"id": "C74", "title": "What primitives defined by users prove", "statement": "If a verifier object of any user-defined primitive accepts two answers to different challenges for one commitment and precommitment, then validate() raised nothing for that precommitment and the statement which construct_stmt makes of it holds for values computed from the two answers.", "quantifier": "all classes, precommitments, commitments, challenges, answers", "why_tests_cant": "arbitrary user code and adversarial answers", "anchors": ["zksk/extended.py:ExtendedProofStmt.full_validate", "zksk/extended.py:ExtendedVerifier", "zksk/base.py:SigmaProtocol"]}
{"id": "C75", "title": "Primitives can be built from primitives", "statement": "A primitive whose construct_stmt returns a statement containing other primitives is verified like any other: verify(), check_statement() and simulate() return for it.", "quantifier": "all classes, proofs, messages, process states", "why_tests_cant": "arbitrary nesting", "anchors": ["zksk/extended.py:ExtendedProver.precommit", "zksk/extended.py:ExtendedVerifier.process_precommitment", "zksk/extended.py:ExtendedProofStmt.get_proof_id"]}
{"id": "C76", "title": "Two accepted non-interactive proofs with the same first messages give the secrets away", "statement": "If verify() returns True for two NIZK objects, possibly with different messages, that have the same precommitment and lead to the same commitments, but have challenges which differ modulo the group orders, then secret values satisfying the statement are computed from the two objects. For a false statement, hence, the hashes of all messages for which proofs with given first messages are accepted are congruent.", "quantifier": "all statements, proofs, messages, process states, groups of prime order, hash functions", "why_tests_cant": "two adversarially chosen proofs; infinitely many statements", "anchors": ["zksk/composition.py:ComposableProofStmt.verify", "zksk/base.py:Verifier.verify_nizk", "zksk/base.py:build_fiat_shamir_challenge"]}
{"id": "C77", "title": "Random numbers that are used twice reveal all secrets", "statement": "If prove() is called twice in the same state of the random number generator (a copied process) for the same statement and two messages, both proofs have the same precommitment, and a fixed function computes every secret value modulo the group order from the two proofs, at every place of the statement where the two challenges differ modulo the order.", "quantifier": "all statements (conjunctions, disjunctions, primitives), values, messages, states", "why_tests_cant": "the property is about two runs with the same random numbers", "anchors": ["zksk/base.py:Prover.get_nizk_proof", "zksk/primitives/dlrep.py:DLRepProver.compute_response", "zksk/composition.py:OrProver.compute_response"]}
{"id": "C78", "title": "The primitives of the documentation are complete and sound", "statement": "The two primitives that the documentation defines as examples do what it says. AdditiveElgamalPlaintextProof: the holder of plaintext and randomizer of a ciphertext has every proof accepted, and from two accepted answers to different challenges plaintext and randomizer are computed. The tutorial's DLNotEqual: true inequalities are accepted (unless the blinder drawn is 0), for false ones verify() raises ValidationError, two accepted answers give the logarithm of the first point, for which the inequality holds; it behaves as the library's class without binding, also in simulations, so that each accepts the other's proofs.", "quantifier": "all groups (for inequalities: with subtraction of points, cf. C50), keys, ciphertexts, points, values, different names of secrets, messages, process states, challenges and answers", "why_tests_cant": "adversarial answers and arbitrary states", "anchors": ["examples/primitive_knowledge_elgamal.py:AdditiveElgamalPlaintextProof", "examples/primitive_dl_notequal.py:DLNotEqual", "docs/new_primitives.rst", "zksk/extended.py:ExtendedProofStmt"]}
{"id": "C79", "title": "Values in Secret objects and values in the dictionary are equivalent", "statement": "Build a statement when some of its secrets have values, and call prove() with a dictionary that has the others; or distribute the same values differently over objects and dictionary. With the same random numbers both calls return the same proof or raise the same exception, for statements of all kinds and depths. In particular the two snippets of the documentation (all values in the objects, all in the dictionary) are equivalent.", "quantifier": "all statements, distributions of values over objects and dictionary (also inconsistent ones, where the dictionary decides, and incomplete ones), messages, states of the process", "why_tests_cant": "two runs must agree for all random choices and all 3^n distributions", "anchors": ["docs/usage.rst", "zksk/composition.py:ComposableProofStmt.prove", "zksk/primitives/dlrep.py:DLRep.__init__", "zksk/primitives/dlrep.py:DLRep.get_prover", "zksk/extended.py:ExtendedProofStmt.get_prover", "zksk/expr.py:update_secret_values", "zksk/primitives/rangeproof.py:PowerTwoRangeStmt.__init__"]}
{"id": "C80", "title": "A request for a blind signature hides the messages", "statement": "For every public key whose generators are in one group of prime order and whose second generator is not the neutral element: what creator.commit(messages, zkp=True) returns for the issuer (commitment and proof) has the same distribution for any two lists of messages of the same length, also for creators that have been used before. With the neutral element as second generator the commitment shows the messages' combination.", "quantifier": "all keys (chosen by a malicious issuer), messages, used or new creators, random choices", "why_tests_cant": "equality of distributions over all random choices", "anchors": ["zksk/primitives/bbsplus.py:BBSPlusSignatureCreator.commit", "zksk/primitives/bbsplus.py:UserCommitmentMessage", "zksk/composition.py:ComposableProofStmt.prove", "zksk/base.py:Prover.get_nizk_proof"]}
{"id": "C81", "title": "Composing copies the statements", "statement": "After orp = p1 | p2 (or &, OrProof(...), AndProof(...)), modifying the original objects does not change the composed proof: marking an original as simulated, assigning its other attributes, verifying or proving it leaves what orp.prove(...) and orp.verify(...) return as it was; verifying the composed statement does not change the originals.", "quantifier": "all statements, ways of composing them, changes of an original, values, messages, proofs, random choices", "why_tests_cant": "which objects are shared after composing depends on the shape of the parts", "anchors": ["docs/usage.rst", "zksk/composition.py:OrProofStmt.__init__", "zksk/composition.py:AndProofStmt.__init__", "zksk/composition.py:ComposableProofStmt.set_simulated"]}
{"id": "C82", "title": "User-defined primitives can be used in bigger proofs", "statement": "Objects of classes that users derive from ExtendedProofStmt can be joined by & with each other and with other statements. If the methods of the classes return true statements, prove() of the conjunction returns a proof that verify() of a conjunction of the verifier's objects accepts. If the verifier accepts two answers to different challenges, validate() of every class has accepted its precommitment, and common values for all parts, satisfying the statements that construct_stmt makes of the precommitments, are computed from the answers.", "quantifier": "all classes (arbitrary methods), conjunctions of any length, values, messages, process states, answers", "why_tests_cant": "the methods of the classes are arbitrary programs; adversarial answers", "anchors": ["docs/new_primitives.rst", "zksk/extended.py:ExtendedProver.precommit", "zksk/composition.py:AndProver.precommit", "zksk/composition.py:AndVerifier.process_precommitment", "zksk/composition.py:AndProofStmt.full_validate"]}
{"id": "C83", "title": "User-defined primitives can be used in or-proofs", "statement": "Objects of classes that users derive from ExtendedProofStmt, with a simulate_precommit method, can be joined by | with each other and with other statements, marked as simulated or not. If the statements that the methods make for the part proved are true, prove() of the disjunction returns a proof that verify() of a disjunction of the verifier's objects accepts. If the verifier accepts two answers to different challenges, one of the parts holds for values computed from the answers; of an object of a class this is the statement that construct_stmt makes of a precommitment that validate() has accepted.", "quantifier": "all classes (arbitrary methods), disjunctions of any length and marks, values, messages, process states, random choices, answers", "why_tests_cant": "the methods of the classes are arbitrary programs; adversarial answers", "anchors": ["docs/new_primitives.rst", "zksk/extended.py:ExtendedProofStmt.simulate_precommit", "zksk/extended.py:ExtendedProofStmt.prepare_simulate_proof", "zksk/composition.py:OrProver.precommit", "zksk/composition.py:OrProver.setup_simulations", "zksk/composition.py:OrVerifier.process_precommitment"]}
{"id": "C84", "title": "User-defined primitives can be used anywhere in nested proofs", "statement": "Objects of classes that users derive from ExtendedProofStmt can be combined with each other and with other statements by & and |, nested in any way. If the statements that the methods make for the parts proved are true, prove() returns a proof that verify() of the verifier's object of the same form accepts, and the interactive protocol ends with True. If the verifier accepts two answers to different challenges, the composition holds for values computed from the answers: of the objects of classes, the statements that construct_stmt makes of precommitments that validate() has accepted, with common values in all parts of a conjunction. With the classes of the library the methods do the same as in the other properties.", "quantifier": "all classes (arbitrary methods), nestings of any depth and width, marks, values, messages, process states, random choices, answers", "why_tests_cant": "the methods of the classes are arbitrary programs; adversarial answers; unbounded nesting", "anchors": ["docs/new_primitives.rst", "zksk/extended.py:ExtendedProver.precommit", "zksk/composition.py:AndProver.precommit", "zksk/composition.py:OrProver.precommit", "zksk/composition.py:AndVerifier.process_precommitment", "zksk/composition.py:OrVerifier.process_precommitment", "zksk/composition.py:OrProver.setup_simulations", "zksk/utils/debug.py:SigmaProtocol.verify"]}
{"id": "C85", "title": "Compositions with user-defined primitives can be simulated", "statement": "Take any nesting by & and | of objects of classes derived from ExtendedProofStmt that override simulate_precommit, and of other statements, true or not. simulate() returns a transcript for the challenge it is given, without values of secrets, and verify_simulation_consistency() of an object of the same form accepts it. With the classes of the library both methods do the same as in the other properties.", "quantifier": "all classes (arbitrary methods), nestings of any depth and width, statements true or false, challenges, process states, random choices", "why_tests_cant": "the methods of the classes are arbitrary programs; unbounded nesting", "anchors": ["zksk/composition.py:ComposableProofStmt.simulate", "zksk/composition.py:ComposableProofStmt.verify_simulation_consistency", "zksk/extended.py:ExtendedProofStmt.simulate_proof", "zksk/extended.py:ExtendedProofStmt.prepare_simulate_proof", "zksk/composition.py:OrProofStmt.simulate_proof", "zksk/composition.py:AndProofStmt.simulate_proof"]}
{"id": "C86", "title": "Conversations about user-defined primitives are zero-knowledge if their precommitments are", "statement": "Take any nesting by & of statements and of objects of classes derived from ExtendedProofStmt. If, for each class, the precommitments that precommit() makes with the prover's values have the distribution of those of simulate_precommit(), which needs no values, and construct_stmt makes the same statements of both, then for every challenge the whole conversation (precommitment, commitment, response) of an honest prover has the distribution of the one that simulate_proof() makes without any secret. The inequality and signature proofs of the library and the inequality of the documentation are such classes.", "quantifier": "all classes (arbitrary methods), nestings of any depth and width, values of secrets, challenges, sequences of random numbers", "why_tests_cant": "equality of distributions over all random numbers; the methods of the classes are arbitrary programs", "anchors": ["docs/new_primitives.rst", "zksk/extended.py:ExtendedProver.precommit", "zksk/extended.py:ExtendedProofStmt.simulate_proof", "zksk/composition.py:AndProver.internal_commit", "zksk/composition.py:AndProofStmt.simulate_proof", "examples/primitive_dl_notequal.py"]}
{"id": "C87", "title": "After the precommitments, proofs about user-defined primitives do not depend on the values", "statement": "Two provers prove the same composition, of objects of classes derived from ExtendedProofStmt and of other statements by & and |, with different values. If their precommitments are the same, and the choices they made in disjunctions (the part proved and the simulated transcripts of the others), then they answer every challenge, their commitments and responses have the same distribution, and so have the proofs that prove() returns.", "quantifier": "all classes (arbitrary methods), nestings of any depth and width, values of secrets, challenges, messages, sequences of random numbers", "why_tests_cant": "equality of distributions over all random numbers; the methods of the classes are arbitrary programs", "anchors": ["zksk/extended.py:ExtendedProver.precommit", "zksk/extended.py:ExtendedProver.internal_commit", "zksk/extended.py:ExtendedProver.compute_response", "zksk/composition.py:OrProver.internal_commit", "zksk/composition.py:OrProver.compute_response", "zksk/base.py:Prover.get_nizk_proof"]}
{"id": "C88", "title": "Non-interactive proofs are sound in the random oracle model", "statement": "Let sha256 be a random function. A prover that asks it Q questions and outputs a proof and a message for a statement without disjunctions that no values satisfy is accepted by verify() with probability at most (Q+2)*(1/q + 1/2^256), where q is the order of the groups. If a prover is accepted with a greater probability (any statement without disjunctions), then two answers to one question make it output two accepted proofs from which the values of the secrets are computed. The same holds for DLNotEqual about equal logarithms; and for signature proofs, where a signature (or a relation between two generators) is computed.", "quantifier": "all statements without disjunctions, all provers (any computation between questions, any number of questions), all messages, all random functions (every list of answers counted)", "why_tests_cant": "a statement about all cheating provers and about the proportion of all random functions, which no test can enumerate", "anchors": ["zksk/base.py:Verifier.verify_nizk", "zksk/base.py:build_fiat_shamir_challenge", "zksk/composition.py:ComposableProofStmt.verify", "zksk/composition.py:ComposableProofStmt.prehash_statement"]}
{"id": "C89", "title": "Non-interactive proofs are complete and zero-knowledge in the random oracle model", "statement": "Whatever function is used in place of sha256, verify() accepts what prove() makes from values that satisfy the statement. Let sha256 be a random function. Someone asks it k questions, then gets from prove() a proof of a conjunction of representations, inequalities and signatures, then goes on asking as they like. A simulator that knows no values, runs simulate_proof() with the next answer as challenge, and lets this be the answer to the verifier's question, leads to the same results, questions and answers: no event has probabilities that differ by more than k/q, where q is the order of the group of one of the representations, inequalities or signatures, and for k = 0 there is no difference.", "quantifier": "all conjunctions of representations, DLNotEqual and signature proofs, all values, messages, earlier questions, all programs that get the proof and go on asking, all lists of answers, all random numbers of the prover (counted), all functions in place of sha256", "why_tests_cant": "a statement about the proportion of random numbers that lead to an event, for all observers and all random functions", "anchors": ["zksk/base.py:Prover.get_nizk_proof", "zksk/base.py:Verifier.verify_nizk", "zksk/base.py:build_fiat_shamir_challenge", "zksk/composition.py:ComposableProofStmt.prove", "zksk/composition.py:AndProofStmt.simulate_proof", "zksk/primitives/dlrep.py:DLRep.simulate_proof"]}
{"id": "C90", "title": "Non-interactive proofs with user-defined primitives are sound in the random oracle model", "statement": "Let sha256 be a random function, and take any nesting by & and | of objects of classes derived from ExtendedProofStmt and of other statements. A prover that asks Q questions and is accepted by verify() with a probability greater than (Q+2)*(1/q + 1/2^256) (q: order of the groups) outputs, for two answers to one question, two accepted proofs from which values are computed that meet the composition: of the objects, the statements that construct_stmt makes of precommitments that validate() has accepted. If no values do, it is accepted at most with this probability. Whatever function is used in place of sha256, verify() accepts what prove() makes from values that satisfy the statements.", "quantifier": "all classes (arbitrary methods), nestings of any depth and width, all provers (any computation between questions, any number of questions), all messages, all random functions (every list of answers counted)", "why_tests_cant": "a statement about all cheating provers and about the proportion of all random functions; the methods of the classes are arbitrary programs", "anchors": ["docs/new_primitives.rst", "zksk/extended.py:ExtendedVerifier.process_precommitment", "zksk/composition.py:AndVerifier.process_precommitment", "zksk/composition.py:OrVerifier.process_precommitment", "zksk/base.py:Verifier.verify_nizk", "zksk/base.py:build_fiat_shamir_challenge"]}
{"id": "C91", "title": "Non-interactive proofs with user-defined primitives are zero-knowledge in the random oracle model", "statement": "Let sha256 be a random function, and take any nesting by & of objects of classes derived from ExtendedProofStmt, whose simulate_precommit() makes precommitments with the distribution of precommit()'s, and of other statements without disjunctions. A simulator that knows no secret makes a proof with prepare_simulate_proof() and simulate_proof(challenge=c) and chooses one answer of the random function. Someone who has asked k questions before, sees a proof of prove() or of the simulator, and goes on asking, cannot tell one from the other: the probabilities of any event differ by at most k/q (q: order of a group), and not at all for k = 0.", "quantifier": "all such classes (arbitrary methods), nestings of any depth and width, all observers (any computation and number of questions after the proof), all earlier questions and answers, all messages, all secrets", "why_tests_cant": "an equality of distributions over all random numbers and all random functions; the methods of the classes are arbitrary programs", "anchors": ["docs/new_primitives.rst", "zksk/extended.py:ExtendedProofStmt.simulate_proof", "zksk/extended.py:ExtendedProofStmt.prepare_simulate_proof", "zksk/composition.py:AndProofStmt.simulate_proof", "zksk/base.py:Prover.get_nizk_proof", "zksk/base.py:build_fiat_shamir_challenge"]}
{"id": "C92", "title": "Many non-interactive proofs are zero-knowledge in the random oracle model", "statement": "Let sha256 be a random function. Someone asks it questions and gets proofs, by prove(), of several statements (conjunctions as for one proof, also with user-defined primitives), with messages of their choice; messages, questions and the choice of statements may depend on everything seen before. If simulators, which know no secret, make all proofs instead and choose answers of the random function, the probabilities of any event differ by at most p*(k + 2p)/q, for p statements, k questions and groups of order at least q.", "quantifier": "all sequences of such statements (any number), all observers (any computation between questions and proofs, any adaptive choices), all earlier questions and answers, all messages, all secrets", "why_tests_cant": "an inequality between probabilities over all random numbers of all proofs and all random functions, for every observer", "anchors": ["zksk/composition.py:ComposableProofStmt.prove", "zksk/base.py:Prover.get_nizk_proof", "zksk/base.py:build_fiat_shamir_challenge", "zksk/composition.py:ComposableProofStmt.simulate", "zksk/composition.py:AndProofStmt.simulate_proof", "zksk/extended.py:ExtendedProofStmt.simulate_proof"]}
{"id": "C93", "title": "Non-interactive proofs of statements chosen by the prover are sound in the random oracle model", "statement": "Let sha256 be a random function. Someone asks it at most k questions and then hands over a statement and a proof, both depending on the answers. If verify() accepts with a probability above (k+2)/N, for answers from a set of N numbers distinct modulo the orders, then two accepting proofs arise from which the secrets of the statement handed over are computed, so the statement holds: false statements are accepted with at most that probability, which for digests of 32 bytes and groups of order q is at most (k+2)*(1/q + 1/2^256). The statement is part of the hashed text, so it cannot be fitted to the challenge. The same holds for DLNotEqual, for proofs of knowledge of a signature (a signature on the messages, or a relation between generators of the key, is computed) and for compositions with user-defined primitives; for disjunctions and PowerTwoRange it holds when the sub-challenges of the proof are below the orders, which verify() does not check.", "quantifier": "all provers (any adaptive questions, any statement and proof computed from the answers), all statements and compositions, with user-defined primitives of any kind, all numbers of questions, all messages, all groups of prime order whose points are written injectively", "why_tests_cant": "an inequality between probabilities over all random functions, for every adversary, who chooses the statement too", "anchors": ["zksk/composition.py:ComposableProofStmt.verify", "zksk/composition.py:ComposableProofStmt.prehash_statement", "zksk/base.py:build_fiat_shamir_challenge", "zksk/base.py:Verifier.verify", "zksk/primitives/dlrep.py:DLRep.get_proof_id", "zksk/primitives/dl_notequal.py:DLNotEqual", "zksk/primitives/rangeproof.py:PowerTwoRangeStmt"]}
{"id": "C94", "title": "A proof with a new message cannot be made from proofs of others, in the random oracle model", "statement": "Let sha256 be a random function. Someone asks it at most b questions and, between them, gets proofs of prove() of p statements (of groups of order at least q), with messages of their choice, all depending on what they have seen. In the end they hand over any composition, a proof and a message for which they asked for no proof. If verify() accepts with a probability above n*(1/N + p/q), n = b+2+2p, for answers from a set of N numbers distinct modulo the orders, then the secrets of the composition handed over are computed from two runs in which all the proofs of others are simulated without secrets. So proofs with messages are signatures: whoever makes one for a new message knows the secrets, and seeing other proofs does not help; a composition that does not hold is accepted with at most that probability (n*(1/r + 1/2^256 + p/q) for digests of 32 bytes and groups of order r), and, also for messages seen before, with at most n/N for every choice of the provers' random numbers.", "quantifier": "all adaptive adversaries, all numbers of questions and proofs, all messages, all sequences of statements of the library and conjunctions with user-defined primitives, all compositions handed over, all random numbers of the provers", "why_tests_cant": "an inequality between probabilities over all random functions and all random numbers of the provers, for every adversary that sees proofs and chooses the statement", "anchors": ["zksk/composition.py:ComposableProofStmt.prove", "zksk/composition.py:ComposableProofStmt.verify", "zksk/base.py:Prover.get_nizk_proof", "zksk/base.py:Verifier.verify", "zksk/base.py:build_fiat_shamir_challenge"]}
{"id": "C95", "title": "Whoever shows a credential after having seen others show theirs has a credential, in the random oracle model", "statement": "Let sha256 be a random function. Someone asks it at most b questions and, between them, gets proofs of prove() of p statements (of groups of order at least Q), with messages of their choice. In the end they hand over a statement of the library, a proof and a message for which they asked for no proof. If verify() accepts with a probability above n*K/N + p*n/Q, n = b+2+2p, then: for a BBS+ proof under the issuer's key, two runs in which the proofs of others are simulated without secrets give a valid signature on the messages, or a relation between two generators of the key; for conjunctions of representations they give the secrets; for power-of-two ranges with sub-challenges of the right size they give an opening of the commitment in the range. False conjunctions and inequalities of equal logarithms are accepted with at most this probability, which is n*(1/q + 1/2^256 + p/Q) for digests of 32 bytes.", "quantifier": "all adaptive adversaries, all numbers of questions and proofs, all messages, all statements, all keys, all random numbers of the provers", "why_tests_cant": "an inequality between probabilities over all random functions and all random numbers of the provers, for every adversary that sees proofs and chooses the statement", "anchors": ["zksk/primitives/bbsplus.py:BBSPlusSignatureStmt", "zksk/primitives/dl_notequal.py:DLNotEqual", "zksk/primitives/rangeproof.py:PowerTwoRangeStmt", "zksk/composition.py:ComposableProofStmt.prove", "zksk/composition.py:ComposableProofStmt.verify", "zksk/base.py:Verifier.verify"]}
{"id": "C96", "title": "A byte string is read as a proof exactly if it is one in msgpack", "statement": "NIZK.deserialize(b) returns a proof z if and only if b is, in msgpack with the extensions for numbers and points, an array of two to four byte strings that are the challenge, the responses, the precommitments and the hash of z, in any of the formats that msgpack allows for integers (one byte, signed and unsigned of 1, 2, 4, 8 bytes, Bn), sizes and lists; everything else is an error. One byte string is one proof, and no encoding is the beginning of another. A user may expect that one proof is also one byte string.", "quantifier": "all byte strings, all proofs, all values nested in them", "why_tests_cant": "all byte strings of all lengths, in both directions", "anchors": ["zksk/base.py:NIZK.deserialize", "zksk/base.py:NIZK.serialize"]}
