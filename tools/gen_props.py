#!/usr/bin/env python3
# Generates /verif/properties.jsonl (the list of properties lives here so that it can be edited as text).
import json
P = []
def p(id, title, statement, quantifier, why, *anchors):
    P.append(dict(id=id, title=title, statement=statement, quantifier=quantifier, why_tests_cant=why, anchors=list(anchors)))

p("C01", "Expression evaluation is the weighted sum",
  "For an expression built as x0*g0 + x1*g1 + ... + xn*gn (or with wsum_secrets), eval() returns the group element sum of value(xi)*gi when every secret has a value, and raises IncompleteValuesError exactly when some secret has none; wsum_secrets raises ValueError when the two lists have different lengths.",
  "every number of terms, every group, every list of secrets/values/bases", "unbounded number of terms and all group elements and integer values",
  "zksk/expr.py:Expression.eval", "zksk/expr.py:Expression.__add__", "zksk/expr.py:wsum_secrets")
p("C02", "Adding expressions does not change the operands",
  "Evaluating e1 + e2 yields an expression with the terms of e1 followed by those of e2 and leaves e1 and e2 as they were, so that a sub-expression can be reused in several statements.",
  "every pair of expression objects, including e + e, in every heap of expression objects", "aliasing between objects: depends on the history of operations on shared objects",
  "zksk/expr.py:Expression.__add__")
p("C03", "Modular sum",
  "sum_bn_array(arr, m) returns the unique integer in [0, m) congruent to the sum of arr modulo m.",
  "every list of integers (also negative), every positive modulus", "unbounded lists and integers",
  "zksk/utils/groups.py:sum_bn_array")
p("C04", "Residual challenge completes the or-challenges",
  "The residual challenge r computed for sub-challenges cs and global challenge c satisfies sum(cs) + r = c modulo 2^bits and is zero exactly when the sub-challenges already add up to c modulo 2^bits.",
  "every list of integers, every challenge, every bit length", "unbounded lists and integers",
  "zksk/composition.py:_find_residual_challenge")
p("C05", "Bit decomposition",
  "decompose_into_n_bits(v, n) returns n bits, least significant first, whose binary value is v, when 0 <= v < 2^n, and raises otherwise.",
  "every integer v, every n", "unbounded integers",
  "zksk/primitives/rangeproof.py:decompose_into_n_bits")
p("C06", "Completeness of a discrete-log representation proof (interactive)",
  "If the prover's secret values satisfy lhs = sum xi*Gi then, for every randomness and every challenge, the verifier accepts the responses.",
  "every number of terms, repeated secrets, every group, all secret values, random tapes and challenges", "quantifies over all group elements, randomness and challenges",
  "zksk/primitives/dlrep.py:DLRepProver", "zksk/primitives/dlrep.py:DLRep.recompute_commitment", "zksk/base.py:Verifier.verify")
p("C07", "Completeness for every and/or tree (interactive)",
  "For every statement tree built with & and | from discrete-log representations, a prover obtained with get_prover whose real branches hold is accepted by the verifier for every randomness and every challenge.",
  "every statement tree (any depth and width), all secret values, all random tapes (including the random choice of the or-branch), all challenges", "unbounded trees and all random choices",
  "zksk/composition.py:AndProver", "zksk/composition.py:OrProver", "zksk/base.py:Verifier.verify")
p("C08", "Completeness of non-interactive proofs between two parties",
  "A proof returned by stmt.prove(secrets, message) by a prover whose real branches hold is accepted by stmt'.verify(nizk, message) for a statement stmt' that the verifier built independently with the same public points and the same pattern of secrets (names may differ).",
  "every statement tree including extended primitives, every message, every hash function, every random tape", "unbounded trees, two independent object graphs, all randomness",
  "zksk/base.py:Prover.get_nizk_proof", "zksk/base.py:Verifier.verify_nizk", "zksk/composition.py:ComposableProofStmt.prove", "zksk/composition.py:ComposableProofStmt.verify")
p("C09", "Wrong secrets are rejected",
  "In a prime-order group, if a discrete-log representation prover runs with values that do not satisfy the equation, the verifier rejects for every challenge that is not a multiple of the group order.",
  "all statements, all wrong assignments, all randomness, all challenges", "a test can only try a few wrong values and challenges",
  "zksk/primitives/dlrep.py:DLRepProver.compute_response", "zksk/primitives/dlrep.py:DLRep.recompute_commitment")
p("C10", "Special soundness of and-trees, with shared secrets",
  "From two accepting conversations with the same commitment and challenges that differ modulo the prime group order, one integer per secret can be computed such that every discrete-log equation of the conjunction holds with these values, so re-occurring secrets have one common value.",
  "every and-tree, all adversarial commitments and responses", "quantifies over all adversarial messages",
  "zksk/composition.py:AndVerifier.check_responses_consistency", "zksk/primitives/dlrep.py:DLRepVerifier.check_responses_consistency")
p("C11", "An accepted or-proof needs a true branch",
  "A verifier accepts a proof of an or-statement only from a prover who knows secrets for at least one of the branches; in particular, from two accepting conversations with the same commitment and different challenges, a witness for some branch can be computed.",
  "every or-statement, every adversarial challenge list and response", "adversarial shapes: the list of sub-challenges is chosen by the prover",
  "zksk/composition.py:OrProofStmt.recompute_commitment", "zksk/composition.py:_find_residual_challenge")
p("C12", "An or-proof hides which branch is real",
  "The published sub-challenges of an or-proof do not tell which branch was really proved and which ones were simulated.",
  "every or-statement, every random tape", "a distribution-level claim over all randomness",
  "zksk/composition.py:OrProver.compute_response", "zksk/composition.py:_find_residual_challenge")
p("C13", "Simulated transcripts satisfy the verification equation",
  "stmt.simulate() returns a transcript on which verify_simulation_consistency returns True, without using any secret value.",
  "every statement tree, every random tape, every environment of secret values", "unbounded trees and all randomness",
  "zksk/composition.py:ComposableProofStmt.simulate", "zksk/composition.py:ComposableProofStmt.verify_simulation_consistency", "zksk/composition.py:OrProofStmt.simulate_proof", "zksk/composition.py:AndProofStmt.simulate_proof", "zksk/primitives/dlrep.py:DLRep.simulate_proof")
p("C14", "Honest-verifier zero knowledge of discrete-log representation proofs",
  "For a fixed challenge, the transcripts of the honest prover and those of the simulator are in bijection (same set of (commitment, responses), each obtained from exactly one choice of randomizers in [0, order)).",
  "all statements, all witnesses, all challenges, all randomizers", "a statement about the whole distribution",
  "zksk/primitives/dlrep.py:DLRepProver", "zksk/primitives/dlrep.py:DLRep.simulate_proof")
p("C15", "A simulated transcript only verifies if the hash happens to match",
  "verify() of a transcript produced by simulate() returns True exactly when the simulator's challenge equals the hash of statement, precommitment and commitment; otherwise it returns False.",
  "every statement tree and transcript", "all transcripts, all hash functions",
  "zksk/base.py:Verifier.verify_nizk", "zksk/composition.py:ComposableProofStmt.simulate")
p("C16", "A proof is bound to its statement",
  "If verify accepts, the statement hash in the proof equals the hash of the verifier's own statement; verify raises StatementMismatch otherwise, before looking at responses. Statements with the same identifier have the same structure, bases and left-hand sides and the same pattern of secrets, so they describe the same relation.",
  "all statements and proofs", "quantifies over all pairs of statements",
  "zksk/composition.py:ComposableProofStmt.check_statement", "zksk/composition.py:ComposableProofStmt.get_proof_id", "zksk/primitives/dlrep.py:DLRep.get_proof_id")
p("C17", "Secret names do not matter",
  "Renaming the secrets of a statement injectively changes neither its identifier nor which proofs it accepts. With the same random choices, prove(), verify(), simulate() and the interactive protocol return the same values or raise the same exceptions.",
  "every statement tree, every injective renaming", "all renamings, unbounded trees",
  "zksk/composition.py:_assign_secret_ids", "zksk/composition.py:ComposableProofStmt.get_proof_id", "docs/usage.rst")
p("C18", "A signature proof is bound to its message",
  "If the same proof is accepted for two different messages, then two different inputs of the hash function with the same digest have been exhibited.",
  "all statements, proofs and pairs of messages", "all messages and proofs",
  "zksk/base.py:build_fiat_shamir_challenge", "zksk/base.py:Verifier.verify_nizk")
p("C19", "The challenge hash input determines what is hashed",
  "The byte string hashed into the non-interactive challenge determines the statement identifier, the precommitment, the commitment and the message.",
  "all statements, precommitments, commitments, messages", "injectivity of a variable-length encoding",
  "zksk/base.py:build_fiat_shamir_challenge", "zksk/composition.py:ComposableProofStmt.prehash_statement")
p("C20", "Re-occurring secrets get equal responses",
  "The verifier accepts a conjunction only if all occurrences of one secret outside or-branches have the same response; otherwise it raises ValidationError.",
  "every tree, every adversarial response", "all adversarial responses and unbounded trees",
  "zksk/base.py:Verifier.pre_verification_validation", "zksk/composition.py:AndVerifier.check_responses_consistency")
p("C21", "Secrets re-occurring inside and outside an or-proof are refused",
  "Proving a conjunction raises InvalidSecretsError exactly when some secret occurs in an or-clause of the conjunction and also outside of that clause; a verifier never accepts such a statement for values that differ.",
  "every tree", "unbounded trees, counts of occurrences",
  "zksk/composition.py:AndProofStmt.validate_secrets_reoccurence", "zksk/composition.py:OrProofStmt.validate_secrets_reoccurence", "docs/usage.rst")
p("C22", "Shared secrets need groups of one order",
  "Proving a composed statement raises GroupMismatchError exactly when one secret is used with bases of groups with different orders; a verifier never accepts a shared secret across such groups unless one integer fits both.",
  "every tree, all groups", "unbounded trees",
  "zksk/composition.py:_CommonComposedStmtMixin.validate_group_orders", "docs/usage.rst")
p("C23", "Infix composition is flat and associative",
  "(a & b) & c and a & (b & c) have the same subproofs in the same order and the same identifier; likewise for |; no conjunction is a direct child of the result of & when the operands are flat.",
  "all statements", "all trees",
  "zksk/composition.py:ComposableProofStmt.__and__", "zksk/composition.py:ComposableProofStmt.__or__")
p("C24", "A branch marked simulated is never the real one",
  "The branch executed by an or-prover is one that is not marked simulated and for which a prover could be built; get_prover returns None only if there is no such branch.",
  "every or-statement, every sequence of random choices", "all random choices",
  "zksk/composition.py:OrProofStmt.get_prover")
p("C25", "Secrets for one branch are enough for an or-proof",
  "If values for all the secrets of one non-simulated branch are supplied, proving the or-statement succeeds whatever branch the random choice tries first.",
  "every or-statement, every random choice", "depends on the random choice",
  "zksk/composition.py:OrProofStmt.get_prover", "zksk/composition.py:AndProofStmt.get_prover", "docs/usage.rst")
p("C26", "A statement can be proved repeatedly",
  "Calling prove() again on a statement object that has already been proved succeeds again.",
  "every statement, every history of prove calls", "depends on the history of calls on one object",
  "zksk/primitives/dlrep.py:DLRep.get_prover", "zksk/composition.py:ComposableProofStmt.set_simulated", "zksk/composition.py:OrProofStmt.get_prover")
p("C27", "Inequality of discrete logarithms: completeness",
  "If H0 = x h0 and H1 != x h1 in a prime-order group, proving DLNotEqual and verifying it succeeds unless the random blinder is zero; if H1 = x h1, verification always raises ValidationError.",
  "all points, all secrets, all random tapes, binding or not", "all randomness",
  "zksk/primitives/dl_notequal.py:DLNotEqual")
p("C28", "Inequality of discrete logarithms: soundness",
  "From two accepting conversations with the same precommitment and commitment and different challenges one computes x with H0 = x h0 and H1 != x h1 (h0 not the neutral element).",
  "all adversarial messages", "all adversarial messages",
  "zksk/primitives/dl_notequal.py:DLNotEqual.construct_stmt", "zksk/primitives/dl_notequal.py:DLNotEqual.validate")
p("C29", "Power-of-two range proof: completeness",
  "If com = x g + r h and 0 <= x < 2^n, n >= 2, proving PowerTwoRangeStmt and verifying it with an independently built statement succeeds.",
  "all points, values, number of bits and random tapes", "all values and randomness",
  "zksk/primitives/rangeproof.py:PowerTwoRangeStmt")
p("C30", "Power-of-two range proof: soundness",
  "An accepted proof of PowerTwoRangeStmt implies that the committed value is in [0, 2^n): a statement whose commitment is not to such a value has no accepting proof that an honest run on true bit statements can yield.",
  "all adversarial precommitments", "adversarial shapes of the precommitment",
  "zksk/primitives/rangeproof.py:PowerTwoRangeStmt.validate", "zksk/primitives/rangeproof.py:PowerTwoRangeStmt.construct_stmt")
p("C31", "Range proofs hide the value",
  "The transcript of a range proof does not reveal the committed value.",
  "all values and random tapes", "distribution-level claim",
  "zksk/primitives/rangeproof.py:PowerTwoRangeStmt", "zksk/composition.py:OrProver.compute_response")
p("C32", "Generic ranges reduce to two power-of-two ranges",
  "For a < b, with n and offset as computed by RangeStmt, a <= x < b holds exactly when both x - a and x - a + offset are in [0, 2^n); for b <= a no x satisfies both. Every x in [a, b) can be proved.",
  "all integers a, b, x", "unbounded integers, boundary cases",
  "zksk/primitives/rangeproof.py:GenericRangeStmtMaker.__call__")
p("C33", "BBS+ signatures verify",
  "A signature obtained through commit, sign and obtain_signature verifies under the public key for the committed messages, blinded or not.",
  "all keys, message lists, random tapes", "all randomness and message lists",
  "zksk/primitives/bbsplus.py:BBSPlusSecretKey.sign", "zksk/primitives/bbsplus.py:BBSPlusSignatureCreator", "zksk/primitives/bbsplus.py:BBSPlusSignature.verify_signature")
p("C34", "A BBS+ signature is bound to the whole message list",
  "If verify_signature accepts the same signature for two message lists then the lists commit to the same element over the key's bases; in particular no message is ignored.",
  "all keys, signatures, message lists of any length", "message lists of any length, including longer than the key supports",
  "zksk/primitives/bbsplus.py:BBSPlusSignature.verify_signature", "zksk/pairings.py:G1Group.wsum")
p("C35", "Proof of knowledge of a BBS+ signature: completeness and soundness",
  "A prover holding a valid signature is accepted; from two accepting conversations one computes a valid signature on the extracted messages or a non-trivial relation between two bases.",
  "all keys, messages, adversarial transcripts", "all adversarial messages",
  "zksk/primitives/bbsplus.py:BBSPlusSignatureStmt")
p("C36", "Serialization round-trip",
  "NIZK.deserialize(nizk.serialize()) has the same challenge, responses, precommitment and statement hash, and verifies exactly when the original does.",
  "all proofs", "unbounded nested values",
  "zksk/base.py:NIZK.serialize", "zksk/base.py:NIZK.deserialize", "zksk/pairings.py:pt_enc", "zksk/pairings.py:pt_dec")
p("C37", "Custom extended primitives work inside compositions",
  "A primitive that only overrides construct_stmt can be used, proved and simulated as a member of conjunctions and disjunctions (docs/new_primitives.rst).",
  "all such primitives, all compositions", "all compositions and histories",
  "zksk/extended.py:ExtendedProofStmt", "zksk/composition.py:OrProver.precommit", "docs/new_primitives.rst")
p("C38", "Two responses to one commitment reveal the secrets",
  "If compute_response is called twice after one commit with challenges that differ modulo the prime order, the two response lists determine every secret value modulo the order; after a new commit the randomizers are drawn afresh.",
  "all statements, values, randomness, challenge pairs", "all histories of calls on a prover object",
  "zksk/primitives/dlrep.py:DLRepProver.compute_response", "zksk/primitives/dlrep.py:DLRepProver.internal_commit")
p("C39", "An accepted proof cannot be changed into another accepted proof",
  "Given an accepted proof, no different tuple of challenge and responses with the same statement hash is accepted.",
  "all proofs", "all adversarial modifications",
  "zksk/primitives/dlrep.py:DLRep.recompute_commitment", "zksk/base.py:Verifier.verify_nizk")
p("C40", "Generators are a deterministic function of the seed",
  "make_generators(n, seed=s) is determined by s and n, is a prefix of make_generators(m, seed=s) for n <= m, and two different seeds do not yield the same generators; without a seed every generator is the hash of fresh random bytes.",
  "all seeds and counts", "unbounded counts",
  "zksk/utils/groups.py:make_generators", "zksk/utils/groups.py:get_random_point")
p("C41", "Random numbers stay in range",
  "get_random_num(bits) is in [0, 2^bits), and the verifier's interactive challenge is in [0, 2^128); every response of the discrete-log prover is in [0, order).",
  "all random tapes", "all randomness",
  "zksk/utils/groups.py:get_random_num", "zksk/base.py:Verifier.send_challenge", "zksk/primitives/dlrep.py:DLRepProver.compute_response")
p("C42", "The two proofs of one prover are independent",
  "Two provers obtained from one statement with different secret dictionaries each use their own values; two proofs produced by one or-prover do not reveal the real branch when compared.",
  "all histories of get_prover and get_nizk_proof", "histories of calls on shared mutable objects",
  "zksk/composition.py:OrProver.setup_simulations", "zksk/primitives/dlrep.py:DLRep.get_prover")
p("C43", "Secrets with the same name are the same secret for the verifier",
  "If two occurrences in the verifier's statement have the same identifier index in get_proof_id, the verifier checks that their responses are equal.",
  "all trees and environments of secret values", "depends on the mutable value attribute of distinct objects",
  "zksk/expr.py:Secret.__eq__", "zksk/primitives/dlrep.py:DLRepVerifier.check_responses_consistency", "zksk/composition.py:_assign_secret_ids")
p("C44", "Extended statements can be run interactively",
  "For every extended primitive, the interactive protocol (precommit, process_precommitment, commit, send_challenge, compute_response, verify) runs to a verdict, whatever kind of statement construct_stmt returns.",
  "all extended primitives", "all subclasses",
  "zksk/extended.py:ExtendedVerifier.send_challenge", "zksk/composition.py:AndVerifier.send_challenge", "zksk/base.py:Verifier.send_challenge")
p("C45", "A range-only proof can be verified by somebody else",
  "A proof of RangeOnlyStmt(a, b, x) can be verified with a statement that the verifier constructs without knowing x.",
  "all ranges and values", "two independent parties",
  "zksk/primitives/rangeproof.py:GenericRangeOnlyStmtMaker.__call__")
p("C46", "Inequality of discrete logarithms in two groups",
  "When h lies in another group (of the same order) than g, an accepted DLNotEqual proof still shows that log_g(H0) differs from log_h(H1).",
  "all pairs of groups and all provers", "adversarial provers in every pair of groups",
  "zksk/primitives/dl_notequal.py:DLNotEqual.validate", "zksk/primitives/dl_notequal.py:DLNotEqual.simulate_precommit")
p("C47", "Values of a range proof can be supplied when proving",
  "A range statement built from secrets without values can be proven with prove({x: value, r: randomizer}), as documented for every statement.",
  "all range statements, values and secrets", "histories in which values are set before or after construction",
  "zksk/primitives/rangeproof.py:PowerTwoRangeStmt.__init__", "zksk/primitives/rangeproof.py:PowerTwoRangeStmt.precommit")
p("C48", "A mark set with set_simulated survives composition",
  "If a statement is marked as to be simulated and then used as an operand of |, no part of it is proven for real.",
  "all statements", "order of marking and composing",
  "zksk/composition.py:ComposableProofStmt.__or__", "zksk/composition.py:ComposableProofStmt.set_simulated")
p("C49", "Honest conversations of conjunctions can be simulated",
  "For a statement without disjunctions (conjunctions of representations and inequality proofs with shared secrets), for every challenge, commit() followed by compute_response(c) yields the same commitments and responses as simulate_proof(challenge=c), up to a bijection of the random numbers that does not depend on them.",
  "all conjunction trees, secrets, values, challenges and random numbers", "distributions over all random numbers",
  "zksk/composition.py:AndProofStmt.simulate_proof", "zksk/composition.py:AndProver.internal_commit", "zksk/composition.py:AndProofStmt.get_randomizers", "zksk/primitives/dlrep.py:DLRep.simulate_proof")
p("C50", "Inequalities and ranges can be proven in every group of a pairing",
  "DLNotEqual, PowerTwoRangeStmt and RangeStmt over points of any group offered by the library (G1, G2, GT) can be proven and verified.",
  "all points, values and groups", "all groups",
  "zksk/pairings.py:AdditivePoint", "zksk/primitives/dl_notequal.py:DLNotEqual.precommit", "zksk/primitives/rangeproof.py:PowerTwoRangeStmt.construct_stmt")
p("C51", "The verdict does not depend on earlier uses of the statement object",
  "verify() of one proof returns the same verdict on a new statement object and on one that has been used before: for proofs, for verification of any other (good or bad) proofs, for interactive runs, for simulations, with changed flags and other values of the secrets in between.",
  "all statements, proofs, messages and sequences of calls", "unbounded histories of calls on mutable objects",
  "zksk/base.py:Verifier.verify_nizk", "zksk/extended.py:ExtendedVerifier.process_precommitment", "zksk/composition.py:ComposableProofStmt.verify")
p("C52", "Statements that mix groups, and compositions of fewer than two parts, are never verified",
  "DLRep() with bases from different groups raises InvalidExpression, AndProofStmt() and OrProofStmt() with fewer than two parts raise ValueError. A left-hand side from another group than the bases is not refused by the constructor, but verify() of such a statement, or of a composition containing it anywhere, raises for every proof and never returns a verdict.",
  "all expressions, points, compositions, proofs and messages", "unbounded expressions, nesting and (malformed) proofs",
  "zksk/primitives/dlrep.py:DLRep.__init__", "zksk/primitives/dlrep.py:DLRep.recompute_commitment", "zksk/composition.py:AndProofStmt.__init__", "zksk/composition.py:OrProofStmt.__init__")
p("C53", "One randomizer per secret, and the given one if there is one",
  "After prover.internal_commit(randomizers_dict) all occurrences of one secret outside of disjunctions, at any depth of conjunctions and constructed primitives, have been committed to with one randomizer; a randomizer given in the dictionary is the one that is used, also if the dictionary lacks other secrets.",
  "all statements, provers, dictionaries and random choices", "unbounded nesting and random choices",
  "zksk/composition.py:AndProver.internal_commit", "zksk/composition.py:AndProofStmt.get_randomizers", "zksk/primitives/dlrep.py:DLRepProver.internal_commit", "zksk/composition.py:ComposableProofStmt.update_randomizers")
p("C54", "Generic range proofs: soundness",
  "Two accepted answers of one prover to one first message of RangeStmt(com, g, h, a, b, ...) give an opening of com to a value u with a <= u < b, or a relation between g and h.",
  "all groups, points, bounds and transcripts", "cryptographic soundness over all transcripts",
  "zksk/primitives/rangeproof.py:GenericRangeStmtMaker.__call__", "zksk/primitives/rangeproof.py:PowerTwoRangeStmt.validate", "zksk/composition.py:OrProofStmt.recompute_commitment")
p("C55", "Wrong values in any part of a conjunction are rejected",
  "stmt.prove(values, message), called on a conjunction with values that do not satisfy the equation of some part at any depth, returns a proof that no verifier whose statement has that equation at the same place accepts, unless the challenge is zero modulo the group order or the hash inputs of prover and verifier collide.",
  "all conjunctions, next to any other statements, values, messages, random choices and verifier statements with that equation", "rejection for all wrong values, nestings and random choices; tests check a few",
  "zksk/composition.py:ComposableProofStmt.prove", "zksk/composition.py:AndProver.compute_response", "zksk/composition.py:AndProofStmt.recompute_commitment", "zksk/base.py:Verifier.verify_nizk", "zksk/primitives/dlrep.py:DLRepProver.compute_response")
p("C56", "A signature that was issued can be proven",
  "After BBSPlusKeypair.generate, creator.commit(messages, zkp), sk.sign and creator.obtain_signature, the proof of BBSPlusSignatureStmt made from the signature and the messages is accepted by every verifier with the public key and a statement of the same number of secrets.",
  "all bilinear pairs, numbers of messages, messages, blinded and not, random choices, verifier statements", "the whole life of a credential, for all messages and random choices",
  "zksk/primitives/bbsplus.py:BBSPlusKeypair.generate", "zksk/primitives/bbsplus.py:BBSPlusSignatureCreator.commit", "zksk/primitives/bbsplus.py:BBSPlusSecretKey.sign", "zksk/primitives/bbsplus.py:BBSPlusSignatureCreator.obtain_signature", "zksk/primitives/bbsplus.py:BBSPlusSignatureStmt.construct_stmt")
p("C57", "An accepted blinding shows knowledge of the messages",
  "Two proofs for one blinded commitment that UserCommitmentMessage.verify_blinding(pk) accepts, from one first message with different challenges, give a blinding factor and messages that open the commitment; every signature of the issuer on this commitment is valid for these messages.",
  "all keys, commitments, proofs with any numbers of responses, random choices of the issuer", "cryptographic soundness over all transcripts",
  "zksk/primitives/bbsplus.py:UserCommitmentMessage.verify_blinding", "zksk/primitives/bbsplus.py:BBSPlusSecretKey.sign", "zksk/primitives/bbsplus.py:BBSPlusSignature.verify_signature")
p("C58", "Whole conversations, precommitments included, are zero-knowledge",
  "For a true conjunction of DLReps, DLNotEquals and BBSPlusSignatureStmts whose secrets are supplied, and for every challenge: the prover always answers, and its precommitment, commitment and response together have the same distribution as those of prepare_simulate_proof and simulate_proof, which use no secret value.",
  "all worlds, conjunctions (nested, shared secrets), prime orders, secret values, values of the simulator's Secret objects, challenges, random choices", "equality of distributions over all random choices",
  "zksk/extended.py:ExtendedProver.precommit", "zksk/primitives/dl_notequal.py:DLNotEqual.precommit", "zksk/primitives/dl_notequal.py:DLNotEqual.simulate_precommit", "zksk/primitives/bbsplus.py:BBSPlusSignatureStmt.precommit", "zksk/primitives/bbsplus.py:BBSPlusSignatureStmt.simulate_precommit", "zksk/composition.py:AndProver.internal_commit", "zksk/composition.py:AndProofStmt.simulate_proof")
p("C59", "Interactive runs are about one statement",
  "A verifier sends a challenge only if the statement hash it received is that of its own statement (precommitment included), and raises StatementMismatch otherwise; so every verdict of SigmaProtocol.verify and of verify_simulation_consistency is about one statement, up to collisions of the hash function.",
  "all worlds, statements, commitments, states, provers", "all statements and transcripts, including adversarial ones",
  "zksk/base.py:Verifier.send_challenge", "zksk/composition.py:AndVerifier.send_challenge", "zksk/extended.py:ExtendedVerifier.send_challenge", "zksk/composition.py:ComposableProofStmt.check_statement", "zksk/composition.py:ComposableProofStmt.verify_simulation_consistency", "zksk/utils/debug.py:SigmaProtocol.verify")
p("C60", "Statements built from the same parts do not disturb each other",
  "A statement object is proved and verified in the same way, with the same result or exception for the same values and random choices, whether or not another statement that was built from the same Python objects has been proved or verified before.",
  "all pairs of statements, values, messages, random choices and object states", "aliasing between unboundedly many mutable objects",
  "zksk/composition.py:AndProofStmt.__init__", "zksk/composition.py:OrProofStmt.__init__", "zksk/composition.py:OrProofStmt.get_prover", "zksk/primitives/dlrep.py:DLRep.get_prover", "zksk/composition.py:AndProofStmt.get_prover")
p("C61", "A statement object may occur several times in a tree",
  "A statement that is built with a variable used several times, as in (m & x) | (m & v), is proved and verified like the statement in which every use of the variable is written out: same result or exception for the same random choices. Building a statement does not change the parts.",
  "all expressions over statement objects, object states, values, messages, proofs and random choices", "aliasing between unboundedly many mutable objects",
  "zksk/composition.py:AndProofStmt.__init__", "zksk/composition.py:OrProofStmt.__init__", "zksk/composition.py:ComposableProofStmt.__and__", "zksk/composition.py:ComposableProofStmt.__or__", "zksk/composition.py:OrProver.precommit", "zksk/extended.py:ExtendedProofStmt.full_construct_stmt")
p("C62", "Proofs depend on the branches chosen, not on the values of secrets",
  "Two provers of one composition of DLReps that have values for the same secrets but different values, and the same random choices until get_prover() returns, hold equal prover objects (the same branches and simulations); after that, their commitments and responses have the same distribution for every challenge, and so have the results of get_nizk_proof(). So an or-proof shows no more than which branches were chosen, whatever is known about the values.",
  "all worlds, compositions of DLReps (nested), pairs of witnesses, challenges, messages, random choices", "equality of distributions over all random choices and all pairs of witnesses",
  "zksk/composition.py:OrProofStmt.get_prover", "zksk/composition.py:OrProver.setup_simulations", "zksk/composition.py:OrProver.internal_commit", "zksk/composition.py:OrProver.compute_response", "zksk/composition.py:AndProver.internal_commit", "zksk/primitives/dlrep.py:DLRepProver.internal_commit", "zksk/base.py:Prover.get_nizk_proof")
p("C63", "Wrapped points of bilinear groups behave additively",
  "In the three groups of a BilinearGroupPair, n * p is p added n times (n = 0 included, where bplib's power of GT elements is unusable), negative and large multiples are as expected, sum() and wsum() are the sums they are named after, pair() is bilinear. The points of one pair object satisfy everything that the other theorems assume of a group.",
  "all bplib groups that satisfy the usual laws for nonzero exponents, points, integers, lists", "all integers and points; the laws for all exponents follow from those for nonzero ones",
  "zksk/pairings.py:AdditivePoint.__mul__", "zksk/pairings.py:AdditivePoint.__add__", "zksk/pairings.py:G1Point.pair", "zksk/pairings.py:G1Point.__sub__", "zksk/pairings.py:GTGroup.wsum", "zksk/pairings.py:G1Group.__eq__", "zksk/pairings.py:GTGroup.generator")
p("C64", "Group pair objects and points that are sent",
  "A point that is encoded and decoded equals the original, and can be used in its place. BilinearGroupPair(bp_group) is a group pair over the given BpGroup.",
  "all points, group pair objects, given groups", "all points and later operations on them",
  "zksk/pairings.py:pt_enc", "zksk/pairings.py:pt_dec", "zksk/pairings.py:BilinearGroupPair.__init__", "zksk/pairings.py:G1Group.__eq__", "zksk/primitives/bbsplus.py:BBSPlusSignatureStmt.construct_stmt")
p("C65", "Generated names of secrets are unique",
  "Two Secret objects that are made without a name have different names. (Statements identify secrets by name; the other properties assume that same-named secrets are the same object.)",
  "all programs that make and drop Secret objects, all addresses, interleaved with given names", "depends on memory addresses and on the hash function",
  "zksk/expr.py:Secret.__init__", "zksk/expr.py:Secret._generate_unique_name", "zksk/expr.py:Secret.__hash__")
p("C66", "A false statement is accepted for at most one challenge",
  "Whatever precommitment, commitment and answers a prover of a false statement sends, at most one of the 2^128 challenges of the verifier leads to acceptance (in groups of prime order of at least 128 bits). The same for an inequality of equal logarithms.",
  "all worlds, statements, precommitments, commitments, answers (functions of the challenge), random choices of the verifier", "a bound on the probability of success of every cheating prover",
  "zksk/base.py:Verifier.send_challenge", "zksk/base.py:Verifier.verify", "zksk/utils/groups.py:get_random_num", "zksk/consts.py:CHALLENGE_LENGTH", "zksk/composition.py:AndVerifier.check_responses_consistency", "zksk/primitives/dlrep.py:DLRepVerifier.check_responses_consistency", "zksk/primitives/dl_notequal.py:DLNotEqual.validate")
p("C67", "A verifier answers every message",
  "Whatever proof object verify() is given, it returns True or False or raises StatementMismatch, ValidationError or InconsistentChallengeError. No other exception leaves it.",
  "all worlds, statements, proof objects (challenge, responses, precommitment and statement hash of any form), messages", "proof objects are arbitrary trees of values under the control of the other party",
  "zksk/base.py:Verifier.verify_nizk", "zksk/base.py:Verifier.pre_verification_validation", "zksk/composition.py:OrProofStmt.recompute_commitment", "zksk/composition.py:AndVerifier.process_precommitment", "zksk/composition.py:OrVerifier.check_responses_consistency", "zksk/primitives/dlrep.py:DLRepVerifier.check_responses_consistency", "zksk/extended.py:ExtendedVerifier.process_precommitment", "zksk/primitives/rangeproof.py:PowerTwoRangeStmt.validate")
p("C68", "Proving and verifying touch no other secrets",
  "verify() changes the value of no Secret object and uses no randomness. A successful prove() changes the values of no Secret objects except those in the given dictionary and the auxiliary ones the primitives of the statement created for themselves; afterwards those in the dictionary have the given values, unless the statement is a single representation, which leaves them as they were.",
  "all worlds, statements, dictionaries (one value per name and object), messages, process states, proof objects", "says what does not change, for all Secret objects of the process",
  "zksk/composition.py:ComposableProofStmt.prove", "zksk/composition.py:ComposableProofStmt.verify", "zksk/composition.py:_CommonComposedStmtMixin.update_secret_values", "zksk/extended.py:ExtendedProofStmt.get_prover", "zksk/primitives/dlrep.py:DLRep.get_prover", "zksk/primitives/dl_notequal.py:DLNotEqual.precommit", "zksk/primitives/rangeproof.py:PowerTwoRangeStmt.precommit")
p("C69", "A verifier object can be used again",
  "What a verifier object was used for before (proofs it accepted, rejected, or refused with an exception) has no influence on later answers: it returns the same verdict or raises the same exception as a verifier object just created; in particular it accepts honest proofs.",
  "all worlds, statements, sequences of earlier uses of the verifier object, proof objects, messages, states", "arbitrary sequences of uses of one object",
  "zksk/base.py:Verifier.verify_nizk", "zksk/composition.py:AndVerifier.process_precommitment", "zksk/composition.py:OrVerifier.process_precommitment", "zksk/extended.py:ExtendedVerifier.process_precommitment", "zksk/extended.py:ExtendedProofStmt.full_construct_stmt", "zksk/extended.py:ExtendedProofStmt.get_proof_id")
p("C70", "Proofs by holders of different secrets or signatures cannot be told apart",
  "Two provers of true conjunctions of DLReps, DLNotEquals and BBSPlusSignatureStmts, each with their own secret values, signatures and names of secrets, who can both talk to a verifier with one and the same statement (whose keys have a usable third generator): for every challenge their conversations, precommitments included, have the same distribution, and for every message so have the non-interactive proofs that prove() returns. In particular presentations of two BBS+ signatures, or two presentations of one, cannot be linked.",
  "all worlds with prime orders, pairs of conjunctions (nested, shared secrets), secret values, signatures, names, challenges, messages, random choices", "equality of distributions over all random choices",
  "zksk/base.py:Prover.get_nizk_proof", "zksk/composition.py:ComposableProofStmt.prove", "zksk/extended.py:ExtendedProver.precommit", "zksk/primitives/bbsplus.py:BBSPlusSignatureStmt.precommit", "zksk/primitives/dl_notequal.py:DLNotEqual.precommit", "zksk/composition.py:ComposableProofStmt.prehash_statement")
p("C71", "No public key of an issuer makes presentations linkable",
  "Whatever the public key of the issuer, proofs of possession of two different signatures under it cannot be told apart.",
  "all public keys, signatures, random choices", "a malicious issuer chooses the key",
  "zksk/primitives/bbsplus.py:BBSPlusSignatureStmt.precommit", "zksk/primitives/bbsplus.py:BBSPlusPublicKey", "zksk/primitives/bbsplus.py:BBSPlusSignatureStmt.construct_stmt")
p("C72", "A failed attempt leaves no trace",
  "After any number of failed calls on a statement object (get_prover() returned None, or an exception was raised at any point of prove()), with any values and in any states of the process, a call of prove() that gives the values of all secrets returns the same proof, or raises the same exception, as it would have done before them.",
  "all statements, numbers of failed calls, dictionaries, process states, messages", "arbitrary sequences of failed calls",
  "zksk/composition.py:AndProofStmt.get_prover", "zksk/composition.py:OrProofStmt.get_prover", "zksk/primitives/dlrep.py:DLRep.get_prover", "zksk/composition.py:ComposableProofStmt.prove")
p("C73", "Primitives defined by users are complete",
  "Take any subclass of ExtendedProofStmt with methods precommit, construct_stmt, simulate_precommit and validate of its own, used on its own, whose constructed statement holds for the prover's values. Then prove() returns a proof, and verify() of an object of a class of the same name accepts it if its construct_stmt makes of the precommitment a statement of the same form (with its own secrets) and its validate raises nothing. Simulated transcripts of classes that override simulate_precommit pass verify_simulation_consistency(). The library's primitives are such classes.",
  "all classes (arbitrary methods), statements constructed, values, process states, messages", "arbitrary user code in the four methods",
  "zksk/extended.py:ExtendedProofStmt", "zksk/extended.py:ExtendedProver", "zksk/extended.py:ExtendedVerifier", "docs/new_primitives.rst")
p("C74", "What primitives defined by users prove",
  "If a verifier object of any user-defined primitive accepts two answers to different challenges for one commitment and precommitment, then validate() raised nothing for that precommitment and the statement which construct_stmt makes of it holds for values computed from the two answers.",
  "all classes, precommitments, commitments, challenges, answers", "arbitrary user code and adversarial answers",
  "zksk/extended.py:ExtendedProofStmt.full_validate", "zksk/extended.py:ExtendedVerifier", "zksk/base.py:SigmaProtocol")
p("C75", "Primitives can be built from primitives",
  "A primitive whose construct_stmt returns a statement containing other primitives is verified like any other: verify(), check_statement() and simulate() return for it.",
  "all classes, proofs, messages, process states", "arbitrary nesting",
  "zksk/extended.py:ExtendedProver.precommit", "zksk/extended.py:ExtendedVerifier.process_precommitment", "zksk/extended.py:ExtendedProofStmt.get_proof_id")
p("C76", "Two accepted non-interactive proofs with the same first messages give the secrets away",
  "If verify() returns True for two NIZK objects, possibly with different messages, that have the same precommitment and lead to the same commitments, but have challenges which differ modulo the group orders, then secret values satisfying the statement are computed from the two objects. For a false statement, hence, the hashes of all messages for which proofs with given first messages are accepted are congruent.",
  "all statements, proofs, messages, process states, groups of prime order, hash functions", "two adversarially chosen proofs; infinitely many statements",
  "zksk/composition.py:ComposableProofStmt.verify", "zksk/base.py:Verifier.verify_nizk", "zksk/base.py:build_fiat_shamir_challenge")
p("C77", "Random numbers that are used twice reveal all secrets",
  "If prove() is called twice in the same state of the random number generator (a copied process) for the same statement and two messages, both proofs have the same precommitment, and a fixed function computes every secret value modulo the group order from the two proofs, at every place of the statement where the two challenges differ modulo the order.",
  "all statements (conjunctions, disjunctions, primitives), values, messages, states", "the property is about two runs with the same random numbers",
  "zksk/base.py:Prover.get_nizk_proof", "zksk/primitives/dlrep.py:DLRepProver.compute_response", "zksk/composition.py:OrProver.compute_response")
p("C78", "The primitives of the documentation are complete and sound",
  "The two primitives that the documentation defines as examples do what it says. AdditiveElgamalPlaintextProof: the holder of plaintext and randomizer of a ciphertext has every proof accepted, and from two accepted answers to different challenges plaintext and randomizer are computed. The tutorial's DLNotEqual: true inequalities are accepted (unless the blinder drawn is 0), for false ones verify() raises ValidationError, two accepted answers give the logarithm of the first point, for which the inequality holds; it behaves as the library's class without binding, also in simulations, so that each accepts the other's proofs.",
  "all groups (for inequalities: with subtraction of points, cf. C50), keys, ciphertexts, points, values, different names of secrets, messages, process states, challenges and answers", "adversarial answers and arbitrary states",
  "examples/primitive_knowledge_elgamal.py:AdditiveElgamalPlaintextProof", "examples/primitive_dl_notequal.py:DLNotEqual", "docs/new_primitives.rst", "zksk/extended.py:ExtendedProofStmt")
p("C79", "Values in Secret objects and values in the dictionary are equivalent",
  "Build a statement when some of its secrets have values, and call prove() with a dictionary that has the others; or distribute the same values differently over objects and dictionary. With the same random numbers both calls return the same proof or raise the same exception, for statements of all kinds and depths. In particular the two snippets of the documentation (all values in the objects, all in the dictionary) are equivalent.",
  "all statements, distributions of values over objects and dictionary (also inconsistent ones, where the dictionary decides, and incomplete ones), messages, states of the process", "two runs must agree for all random choices and all 3^n distributions",
  "docs/usage.rst", "zksk/composition.py:ComposableProofStmt.prove", "zksk/primitives/dlrep.py:DLRep.__init__", "zksk/primitives/dlrep.py:DLRep.get_prover", "zksk/extended.py:ExtendedProofStmt.get_prover", "zksk/expr.py:update_secret_values", "zksk/primitives/rangeproof.py:PowerTwoRangeStmt.__init__")
p("C80", "A request for a blind signature hides the messages",
  "For every public key whose generators are in one group of prime order and whose second generator is not the neutral element: what creator.commit(messages, zkp=True) returns for the issuer (commitment and proof) has the same distribution for any two lists of messages of the same length, also for creators that have been used before. With the neutral element as second generator the commitment shows the messages' combination.",
  "all keys (chosen by a malicious issuer), messages, used or new creators, random choices", "equality of distributions over all random choices",
  "zksk/primitives/bbsplus.py:BBSPlusSignatureCreator.commit", "zksk/primitives/bbsplus.py:UserCommitmentMessage", "zksk/composition.py:ComposableProofStmt.prove", "zksk/base.py:Prover.get_nizk_proof")
p("C81", "Composing copies the statements",
  "After orp = p1 | p2 (or &, OrProof(...), AndProof(...)), modifying the original objects does not change the composed proof: marking an original as simulated, assigning its other attributes, verifying or proving it leaves what orp.prove(...) and orp.verify(...) return as it was; verifying the composed statement does not change the originals.",
  "all statements, ways of composing them, changes of an original, values, messages, proofs, random choices", "which objects are shared after composing depends on the shape of the parts",
  "docs/usage.rst", "zksk/composition.py:OrProofStmt.__init__", "zksk/composition.py:AndProofStmt.__init__", "zksk/composition.py:ComposableProofStmt.set_simulated")
p("C82", "User-defined primitives can be used in bigger proofs",
  "Objects of classes that users derive from ExtendedProofStmt can be joined by & with each other and with other statements. If the methods of the classes return true statements, prove() of the conjunction returns a proof that verify() of a conjunction of the verifier's objects accepts. If the verifier accepts two answers to different challenges, validate() of every class has accepted its precommitment, and common values for all parts, satisfying the statements that construct_stmt makes of the precommitments, are computed from the answers.",
  "all classes (arbitrary methods), conjunctions of any length, values, messages, process states, answers", "the methods of the classes are arbitrary programs; adversarial answers",
  "docs/new_primitives.rst", "zksk/extended.py:ExtendedProver.precommit", "zksk/composition.py:AndProver.precommit", "zksk/composition.py:AndVerifier.process_precommitment", "zksk/composition.py:AndProofStmt.full_validate")
p("C83", "User-defined primitives can be used in or-proofs",
  "Objects of classes that users derive from ExtendedProofStmt, with a simulate_precommit method, can be joined by | with each other and with other statements, marked as simulated or not. If the statements that the methods make for the part proved are true, prove() of the disjunction returns a proof that verify() of a disjunction of the verifier's objects accepts. If the verifier accepts two answers to different challenges, one of the parts holds for values computed from the answers; of an object of a class this is the statement that construct_stmt makes of a precommitment that validate() has accepted.",
  "all classes (arbitrary methods), disjunctions of any length and marks, values, messages, process states, random choices, answers", "the methods of the classes are arbitrary programs; adversarial answers",
  "docs/new_primitives.rst", "zksk/extended.py:ExtendedProofStmt.simulate_precommit", "zksk/extended.py:ExtendedProofStmt.prepare_simulate_proof", "zksk/composition.py:OrProver.precommit", "zksk/composition.py:OrProver.setup_simulations", "zksk/composition.py:OrVerifier.process_precommitment")
p("C84", "User-defined primitives can be used anywhere in nested proofs",
  "Objects of classes that users derive from ExtendedProofStmt can be combined with each other and with other statements by & and |, nested in any way. If the statements that the methods make for the parts proved are true, prove() returns a proof that verify() of the verifier's object of the same form accepts, and the interactive protocol ends with True. If the verifier accepts two answers to different challenges, the composition holds for values computed from the answers: of the objects of classes, the statements that construct_stmt makes of precommitments that validate() has accepted, with common values in all parts of a conjunction. With the classes of the library the methods do the same as in the other properties.",
  "all classes (arbitrary methods), nestings of any depth and width, marks, values, messages, process states, random choices, answers", "the methods of the classes are arbitrary programs; adversarial answers; unbounded nesting",
  "docs/new_primitives.rst", "zksk/extended.py:ExtendedProver.precommit", "zksk/composition.py:AndProver.precommit", "zksk/composition.py:OrProver.precommit", "zksk/composition.py:AndVerifier.process_precommitment", "zksk/composition.py:OrVerifier.process_precommitment", "zksk/composition.py:OrProver.setup_simulations", "zksk/utils/debug.py:SigmaProtocol.verify")
p("C85", "Compositions with user-defined primitives can be simulated",
  "Take any nesting by & and | of objects of classes derived from ExtendedProofStmt that override simulate_precommit, and of other statements, true or not. simulate() returns a transcript for the challenge it is given, without values of secrets, and verify_simulation_consistency() of an object of the same form accepts it. With the classes of the library both methods do the same as in the other properties.",
  "all classes (arbitrary methods), nestings of any depth and width, statements true or false, challenges, process states, random choices", "the methods of the classes are arbitrary programs; unbounded nesting",
  "zksk/composition.py:ComposableProofStmt.simulate", "zksk/composition.py:ComposableProofStmt.verify_simulation_consistency", "zksk/extended.py:ExtendedProofStmt.simulate_proof", "zksk/extended.py:ExtendedProofStmt.prepare_simulate_proof", "zksk/composition.py:OrProofStmt.simulate_proof", "zksk/composition.py:AndProofStmt.simulate_proof")
p("C86", "Conversations about user-defined primitives are zero-knowledge if their precommitments are",
  "Take any nesting by & of statements and of objects of classes derived from ExtendedProofStmt. If, for each class, the precommitments that precommit() makes with the prover's values have the distribution of those of simulate_precommit(), which needs no values, and construct_stmt makes the same statements of both, then for every challenge the whole conversation (precommitment, commitment, response) of an honest prover has the distribution of the one that simulate_proof() makes without any secret. The inequality and signature proofs of the library and the inequality of the documentation are such classes.",
  "all classes (arbitrary methods), nestings of any depth and width, values of secrets, challenges, sequences of random numbers", "equality of distributions over all random numbers; the methods of the classes are arbitrary programs",
  "docs/new_primitives.rst", "zksk/extended.py:ExtendedProver.precommit", "zksk/extended.py:ExtendedProofStmt.simulate_proof", "zksk/composition.py:AndProver.internal_commit", "zksk/composition.py:AndProofStmt.simulate_proof", "examples/primitive_dl_notequal.py")
p("C87", "After the precommitments, proofs about user-defined primitives do not depend on the values",
  "Two provers prove the same composition, of objects of classes derived from ExtendedProofStmt and of other statements by & and |, with different values. If their precommitments are the same, and the choices they made in disjunctions (the part proved and the simulated transcripts of the others), then they answer every challenge, their commitments and responses have the same distribution, and so have the proofs that prove() returns.",
  "all classes (arbitrary methods), nestings of any depth and width, values of secrets, challenges, messages, sequences of random numbers", "equality of distributions over all random numbers; the methods of the classes are arbitrary programs",
  "zksk/extended.py:ExtendedProver.precommit", "zksk/extended.py:ExtendedProver.internal_commit", "zksk/extended.py:ExtendedProver.compute_response", "zksk/composition.py:OrProver.internal_commit", "zksk/composition.py:OrProver.compute_response", "zksk/base.py:Prover.get_nizk_proof")
p("C88", "Non-interactive proofs are sound in the random oracle model",
  "Let sha256 be a random function. A prover that asks it Q questions and outputs a proof and a message for a statement without disjunctions that no values satisfy is accepted by verify() with probability at most (Q+2)*(1/q + 1/2^256), where q is the order of the groups. If a prover is accepted with a greater probability (any statement without disjunctions), then two answers to one question make it output two accepted proofs from which the values of the secrets are computed. The same holds for DLNotEqual about equal logarithms; and for signature proofs, where a signature (or a relation between two generators) is computed.",
  "all statements without disjunctions, all provers (any computation between questions, any number of questions), all messages, all random functions (every list of answers counted)", "a statement about all cheating provers and about the proportion of all random functions, which no test can enumerate",
  "zksk/base.py:Verifier.verify_nizk", "zksk/base.py:build_fiat_shamir_challenge", "zksk/composition.py:ComposableProofStmt.verify", "zksk/composition.py:ComposableProofStmt.prehash_statement")
p("C89", "Non-interactive proofs are complete and zero-knowledge in the random oracle model",
  "Whatever function is used in place of sha256, verify() accepts what prove() makes from values that satisfy the statement. Let sha256 be a random function. Someone asks it k questions, then gets from prove() a proof of a conjunction of representations, inequalities and signatures, then goes on asking as they like. A simulator that knows no values, runs simulate_proof() with the next answer as challenge, and lets this be the answer to the verifier's question, leads to the same results, questions and answers: no event has probabilities that differ by more than k/q, where q is the order of the group of one of the representations, inequalities or signatures, and for k = 0 there is no difference.",
  "all conjunctions of representations, DLNotEqual and signature proofs, all values, messages, earlier questions, all programs that get the proof and go on asking, all lists of answers, all random numbers of the prover (counted), all functions in place of sha256", "a statement about the proportion of random numbers that lead to an event, for all observers and all random functions",
  "zksk/base.py:Prover.get_nizk_proof", "zksk/base.py:Verifier.verify_nizk", "zksk/base.py:build_fiat_shamir_challenge", "zksk/composition.py:ComposableProofStmt.prove", "zksk/composition.py:AndProofStmt.simulate_proof", "zksk/primitives/dlrep.py:DLRep.simulate_proof")
p("C90", "Non-interactive proofs with user-defined primitives are sound in the random oracle model",
  "Let sha256 be a random function, and take any nesting by & and | of objects of classes derived from ExtendedProofStmt and of other statements. A prover that asks Q questions and is accepted by verify() with a probability greater than (Q+2)*(1/q + 1/2^256) (q: order of the groups) outputs, for two answers to one question, two accepted proofs from which values are computed that meet the composition: of the objects, the statements that construct_stmt makes of precommitments that validate() has accepted. If no values do, it is accepted at most with this probability. Whatever function is used in place of sha256, verify() accepts what prove() makes from values that satisfy the statements.",
  "all classes (arbitrary methods), nestings of any depth and width, all provers (any computation between questions, any number of questions), all messages, all random functions (every list of answers counted)", "a statement about all cheating provers and about the proportion of all random functions; the methods of the classes are arbitrary programs",
  "docs/new_primitives.rst", "zksk/extended.py:ExtendedVerifier.process_precommitment", "zksk/composition.py:AndVerifier.process_precommitment", "zksk/composition.py:OrVerifier.process_precommitment", "zksk/base.py:Verifier.verify_nizk", "zksk/base.py:build_fiat_shamir_challenge")
p("C91", "Non-interactive proofs with user-defined primitives are zero-knowledge in the random oracle model",
  "Let sha256 be a random function, and take any nesting by & of objects of classes derived from ExtendedProofStmt, whose simulate_precommit() makes precommitments with the distribution of precommit()'s, and of other statements without disjunctions. A simulator that knows no secret makes a proof with prepare_simulate_proof() and simulate_proof(challenge=c) and chooses one answer of the random function. Someone who has asked k questions before, sees a proof of prove() or of the simulator, and goes on asking, cannot tell one from the other: the probabilities of any event differ by at most k/q (q: order of a group), and not at all for k = 0.",
  "all such classes (arbitrary methods), nestings of any depth and width, all observers (any computation and number of questions after the proof), all earlier questions and answers, all messages, all secrets", "an equality of distributions over all random numbers and all random functions; the methods of the classes are arbitrary programs",
  "docs/new_primitives.rst", "zksk/extended.py:ExtendedProofStmt.simulate_proof", "zksk/extended.py:ExtendedProofStmt.prepare_simulate_proof", "zksk/composition.py:AndProofStmt.simulate_proof", "zksk/base.py:Prover.get_nizk_proof", "zksk/base.py:build_fiat_shamir_challenge")
p("C92", "Many non-interactive proofs are zero-knowledge in the random oracle model",
  "Let sha256 be a random function. Someone asks it questions and gets proofs, by prove(), of several statements (conjunctions as for one proof, also with user-defined primitives), with messages of their choice; messages, questions and the choice of statements may depend on everything seen before. If simulators, which know no secret, make all proofs instead and choose answers of the random function, the probabilities of any event differ by at most p*(k + 2p)/q, for p statements, k questions and groups of order at least q.",
  "all sequences of such statements (any number), all observers (any computation between questions and proofs, any adaptive choices), all earlier questions and answers, all messages, all secrets", "an inequality between probabilities over all random numbers of all proofs and all random functions, for every observer",
  "zksk/composition.py:ComposableProofStmt.prove", "zksk/base.py:Prover.get_nizk_proof", "zksk/base.py:build_fiat_shamir_challenge", "zksk/composition.py:ComposableProofStmt.simulate", "zksk/composition.py:AndProofStmt.simulate_proof", "zksk/extended.py:ExtendedProofStmt.simulate_proof")
p("C93", "Non-interactive proofs of statements chosen by the prover are sound in the random oracle model",
  "Let sha256 be a random function. Someone asks it at most k questions and then hands over a statement and a proof, both depending on the answers. If verify() accepts with a probability above (k+2)/N, for answers from a set of N numbers distinct modulo the orders, then two accepting proofs arise from which the secrets of the statement handed over are computed, so the statement holds: false statements are accepted with at most that probability, which for digests of 32 bytes and groups of order q is at most (k+2)*(1/q + 1/2^256). The statement is part of the hashed text, so it cannot be fitted to the challenge. The same holds for DLNotEqual, for proofs of knowledge of a signature (a signature on the messages, or a relation between generators of the key, is computed) and for compositions with user-defined primitives; for disjunctions and PowerTwoRange it holds when the sub-challenges of the proof are below the orders, which verify() does not check.",
  "all provers (any adaptive questions, any statement and proof computed from the answers), all statements and compositions, with user-defined primitives of any kind, all numbers of questions, all messages, all groups of prime order whose points are written injectively", "an inequality between probabilities over all random functions, for every adversary, who chooses the statement too",
  "zksk/composition.py:ComposableProofStmt.verify", "zksk/composition.py:ComposableProofStmt.prehash_statement", "zksk/base.py:build_fiat_shamir_challenge", "zksk/base.py:Verifier.verify", "zksk/primitives/dlrep.py:DLRep.get_proof_id", "zksk/primitives/dl_notequal.py:DLNotEqual", "zksk/primitives/rangeproof.py:PowerTwoRangeStmt")
p("C94", "A proof with a new message cannot be made from proofs of others, in the random oracle model",
  "Let sha256 be a random function. Someone asks it at most b questions and, between them, gets proofs of prove() of p statements (of groups of order at least q), with messages of their choice, all depending on what they have seen. In the end they hand over any composition, a proof and a message for which they asked for no proof. If verify() accepts with a probability above n*(1/N + p/q), n = b+2+2p, for answers from a set of N numbers distinct modulo the orders, then the secrets of the composition handed over are computed from two runs in which all the proofs of others are simulated without secrets. So proofs with messages are signatures: whoever makes one for a new message knows the secrets, and seeing other proofs does not help; a composition that does not hold is accepted with at most that probability (n*(1/r + 1/2^256 + p/q) for digests of 32 bytes and groups of order r), and, also for messages seen before, with at most n/N for every choice of the provers' random numbers.",
  "all adaptive adversaries, all numbers of questions and proofs, all messages, all sequences of statements of the library and conjunctions with user-defined primitives, all compositions handed over, all random numbers of the provers", "an inequality between probabilities over all random functions and all random numbers of the provers, for every adversary that sees proofs and chooses the statement",
  "zksk/composition.py:ComposableProofStmt.prove", "zksk/composition.py:ComposableProofStmt.verify", "zksk/base.py:Prover.get_nizk_proof", "zksk/base.py:Verifier.verify", "zksk/base.py:build_fiat_shamir_challenge")
p("C95", "Whoever shows a credential after having seen others show theirs has a credential, in the random oracle model",
  "Let sha256 be a random function. Someone asks it at most b questions and, between them, gets proofs of prove() of p statements (of groups of order at least Q), with messages of their choice. In the end they hand over a statement of the library, a proof and a message for which they asked for no proof. If verify() accepts with a probability above n*K/N + p*n/Q, n = b+2+2p, then: for a BBS+ proof under the issuer's key, two runs in which the proofs of others are simulated without secrets give a valid signature on the messages, or a relation between two generators of the key; for conjunctions of representations they give the secrets; for power-of-two ranges with sub-challenges of the right size they give an opening of the commitment in the range. False conjunctions and inequalities of equal logarithms are accepted with at most this probability, which is n*(1/q + 1/2^256 + p/Q) for digests of 32 bytes.",
  "all adaptive adversaries, all numbers of questions and proofs, all messages, all statements, all keys, all random numbers of the provers", "an inequality between probabilities over all random functions and all random numbers of the provers, for every adversary that sees proofs and chooses the statement",
  "zksk/primitives/bbsplus.py:BBSPlusSignatureStmt", "zksk/primitives/dl_notequal.py:DLNotEqual", "zksk/primitives/rangeproof.py:PowerTwoRangeStmt", "zksk/composition.py:ComposableProofStmt.prove", "zksk/composition.py:ComposableProofStmt.verify", "zksk/base.py:Verifier.verify")
p("C96", "A byte string is read as a proof exactly if it is one in msgpack",
  "NIZK.deserialize(b) returns a proof z if and only if b is, in msgpack with the extensions for numbers and points, an array of two to four byte strings that are the challenge, the responses, the precommitments and the hash of z, in any of the formats that msgpack allows for integers (one byte, signed and unsigned of 1, 2, 4, 8 bytes, Bn), sizes and lists; everything else is an error. One byte string is one proof, and no encoding is the beginning of another. A user may expect that one proof is also one byte string.",
  "all byte strings, all proofs, all values nested in them", "all byte strings of all lengths, in both directions",
  "zksk/base.py:NIZK.deserialize", "zksk/base.py:NIZK.serialize")
open("/verif/properties.jsonl", "w").write("".join(json.dumps(x) + "\n" for x in P))
print(len(P))
