P = 'partial'
NOTES = {
 'C02': (P, 'The value of a sum is right and objects other than the left operand are kept: proved. That the left operand is kept is refuted: + extends it in place, so a reused sub-expression grows. Programs that use no variable twice compute the same as with values: proved.'),
 'C11': (P, 'Refuted: the verifier checks neither the number nor the size of the sub-challenges, so an or-proof of any false statement can be forged (interactively and as a non-interactive proof). Proved under exactly those checks: extraction of a witness for a branch.'),
 'C12': (P, 'Refuted: one function finds the real branch from the signs of the sub-challenges. (Nothing else is shown: C62.)'),
 'C16': (P, 'Proved, except that the commitment of a range statement is not in its identifier (refuted); it is compared with the precommitment instead (proved).'),
 'C19': (P, 'Proved if precommitment and commitment are not raw byte strings; a byte string as precommitment is hashed without a frame (two refutations).'),
 'C21': (P, 'Prover: proved in both directions. Verifier: refuted, it accepts different values inside and outside of an or-clause.'),
 'C25': (P, 'Proved for branches that are representations or disjunctions of them. Refuted for a branch that is a conjunction with a missing value: an exception is raised although another branch could be proven; likewise for a branch that is an inequality or range with a missing value or a signature proof without signature (C25_primitive_refuted).'),
 'C26': (P, 'Proved for statements without disjunctions outside of primitives. Refuted for disjunctions: every proof marks branches as simulated for good, until none is left.'),
 'C30': (P, 'Refuted: the verifier does not check the number of bit commitments, nor the or-challenges (see C11). Proved under these checks (the value and the opening are computed from two proofs), for groups of at least 2^129 elements.'),
 'C31': (P, 'Refuted: the sub-challenges of the bit proofs give the bits (see C12), one function computes the value from every transcript.'),
 'C32': (P, 'Arithmetic and provability proved. Refuted for ranges of one or two elements: they can never be proven (the power-of-two range has n <= 1, an exception).'),
 'C33': (P, 'Proved for a new creator (blinded or not), with success of issuing and acceptance of the proof of the blinding. Refuted for a reused creator: after a blinded commitment, the signature on an unblinded one does not verify, because the old s1 is added.'),
 'C34': (P, 'Refuted: messages beyond the number of bases are ignored, zeros can be appended. Proved (non-degenerate pairing): the messages that have a base differ only by a relation between the bases.'),
 'C36': (P, 'Proved if the points of the proof are decoded to themselves. Refuted for points of pairing groups (decoded into a new group object): no proof of knowledge of a signature is accepted after serialization.'),
 'C37': (P, 'Proved in conjunctions. Refuted for simulation and in disjunctions (simulate_precommit is missing).'),
 'C39': (P, 'Refuted: a multiple of the group order can be added to a response. Proved for statements of any form: two accepted proofs with one challenge differ, at every representation, by a relation between the bases, or by sub-challenges and a solution of the equation there (or there is a collision of the hash function).'),
 'C40': (P, 'Deterministic and prefix-closed: proved. "Different seeds give different generators" is refuted: seeds s and s+1 share all but one generator. Without a seed: the generators are hashes of fresh random bytes (proved).'),
 'C42': (P, 'Refuted: provers of one statement share the dictionary of values; two proofs by one or-prover reveal the real branch.'),
 'C43': (P, 'Proved for occurrences in one part whose Secret objects have the same value (or none); refuted for same-named objects with different values.'),
 'C44': (P, 'Proved for all primitives whose construct_stmt returns a conjunction; refuted if it returns a single representation (TypeError).'),
 'C45': (P, 'Refuted: a verifier cannot construct RangeOnlyStmt without the value, and with a value it makes another commitment. Proved: a verifier who is told the commitment and uses RangeStmt accepts.'),
 'C46': (P, 'Refuted: the precommitment is compared with the neutral element of the wrong group. Proved if it is not the neutral element of the group of h.'),
 'C47': (P, 'Refuted for both statements: without values at construction, prove() raises.'),
 'C48': (P, 'Proved for conjunctions; refuted for disjunctions, which are dissolved together with their mark.'),
 'C50': (P, 'Refuted for GT, whose points have no subtraction: prove() of an inequality and the construction of RangeStmt raise TypeError, a power-of-two range can be neither proven nor verified. In groups with subtraction: proved as C27, C29, C32.'),
 'C54': (P, 'Refuted, as C30: who can open the commitment to any value has an accepted proof. Proved if the numbers of bit commitments and the sub-challenges are checked (the openings are computed from two proofs), for groups of at least 2^129 (and twice the range) elements.'),
 'C64': (P, 'Equality, multiples and pairings of decoded points are as claimed. Refuted: decoded points of G2 and GT, and pairings of decoded points of G1, are in other groups than the originals (GTGroup has no __eq__), which DLRep refuses. Refuted: the constructor does not set bpgp if a group is given, so that every use fails with AttributeError.'),
 'C65': (P, 'Proved for objects that live at the same time, up to two addresses whose hashes agree in the first 16 bytes (the name has 32 hexadecimal digits). Refuted over time: an address, hence a name, is used again after an object is dropped.'),
 'C67': (P, 'Proved for messages of the form that provers produce, with any numbers and any points of the right groups in it, up to values too large for the binary format. Refuted for other messages: missing or short responses raise TypeError or IndexError, a missing precommitment ValueError.'),
 'C69': (P, 'Proved for proofs whose precommitment reaches every primitive (all honest proofs do), whatever the object was used for, and for statements without primitives. Refuted for proofs with the precommitment None: the object then works with the precommitment of an earlier proof and can accept what a new object refuses with ValueError.'),
 'C71': (P, 'Refuted: the library does not look at the generators of a key; with the neutral element as third generator every proof shows the element A of the signature (proved for all such keys). Under keys with a usable third generator proofs cannot be linked (C70).'),
 'C72': (P, 'Proved for representations, primitives and conjunctions of such in any nesting, for objects used before in any way by prove() and verify(), with exceptions at any point (secrets identified consistently by name and object if there are primitives). Refuted for disjunctions of representations (once no branch had its values, no later call of prove() on the object succeeds) and for calls that do not give all values (values of failed calls stay and are used).'),
 'C73': (P, 'Proved for constructed statements without primitives (C75), with secrets of or-clauses not used outside of them (C21), precommitments other than None and strings (refuted for these: with None no verifier accepts, with a string prove() raises), and up to messages with parts of 2^32 bytes. The object is used on its own; conjunctions are C82, the library\'s primitives in compositions C37.'),
 'C74': (P, 'Proved for constructed statements without primitives (C75), and for disjunctions under the conditions of C11 only (one sub-challenge per branch, of absolute value below 2^128), which the verifier does not check.'),
 'C75': (P, 'Refuted: prove() returns a proof, but verify(), check_statement() and simulate() raise an exception for every such class, because the verifier constructs only the outer statement.'),
 'C76': (P, 'Proved for statements without disjunctions (primitives included, about the statement that the precommitment leads to), and for disjunctions under the conditions of C11 only, which the verifier does not check.'),
 'C66': (P, 'Proved for statements without disjunctions (primitives included, about the statement that the precommitment leads to) and for inequalities. For disjunctions only if the sub-challenges are as many as the branches and of the right size; false otherwise (C11).'),
 'C60': (P, 'Proved for statements without common objects, and for compositions without precommitments that have only primitives in common and are proved with the same values. Refuted twice: a part of a conjunction keeps the values the conjunction was proved with; two conjunctions with a common disjunction cannot both be proved (the marks of the first proof stay).'),
 'C61': (P, 'Proved if no composed statement is used twice (a primitive may be: it is copied). Refuted for composed statements, whose parts are not copied: a common inequality in both branches of an or-proof has one precommitment, and the honest proof is refused.'),
 'C82': (P, 'Conjunctions. Completeness: the other parts are statements without primitives, the statements constructed have no primitives (C75), secrets of or-clauses are not used outside of them (C21), not all precommitments are None (refuted otherwise); up to messages with parts of 2^32 bytes. Soundness: without disjunctions, or under the conditions of C11. Disjunctions are C83.'),
 'C83': (P, 'Completeness: the other parts are statements without primitives, the statements constructed have no primitives (C75), secrets of or-clauses are not used outside of them (C21), not all precommitments are empty (refuted otherwise: with the precommit() of the base class no verifier accepts); up to messages with parts of 2^32 bytes. Soundness under the conditions of C11.'),
 'C84': (P, 'Completeness: the other parts are statements without primitives (the library\'s primitives are covered as classes), the statements constructed have no primitives (C75), secrets of or-clauses are not used outside of them (C21), precommitments are not None, in a disjunction not all empty (refuted otherwise, C73 and C83); one valuation for all parts proved in the run; up to messages with parts of 2^32 bytes. Soundness under the conditions of C11.'),
 'C85': (P, 'Proved for classes whose construct_stmt makes statements without primitives of the results of simulate_precommit (otherwise simulate() raises: C75), other parts without primitives (the library\'s primitives are covered as classes), precommitments that are not None and in a disjunction not all empty, and up to identifiers of 2^32 bytes.'),
 'C86': (P, 'Proved for compositions without disjunctions, classes whose constructed statements have neither disjunctions nor primitives and always the same secrets, precommitments that are not None, and a number of random numbers per precommitment that does not depend on them. The honest verifier\'s challenge is arbitrary but fixed in advance (as in C49 and C58).'),
 'C90': (P, 'Soundness is proved for compositions without disjunctions; with disjunctions under the conditions of C11 on the sub-challenges (false otherwise). The precommitments that provers send are such that equal encodings mean equal values (plain, C88). The methods of the classes do not use sha256; the composition is fixed in advance. Completeness as in C84.'),
 'C91': (P, 'As in C86: conjunctions; the precommitments of the classes hide the values of the secrets; constructed statements without primitives and disjunctions. One proof; the statement is fixed in advance.'),
 'C92': ('proved', 'Statements as in C89 and C91 (no disjunctions). Every proof is made by objects of its own; the sequence of the statements is fixed, but statements may be repeated in it and skipped.'),
 'C94': (P, 'The proofs seen are of statements as in C92 (no disjunctions); the forged composition is as in C93, with disjunctions only for sub-challenges of the right size (theorem _partial; false otherwise, C11). The message must be new: that the same statement and message have no second proof is false (C39). Someone who gets an exception of prove() gives up (honest provers raise one only for parts of 2^32 bytes, C08 and C84). Precommitments of the simulators are no raw byte strings, which is proved for all statements of the library.'),
 'C96': (P, 'Refuted: one proof is one byte string. For every byte string that is read as a proof there is another one that is read as the same proof. Truth values, floats and keys that are no text are not modelled (errors here). petlib and msgpack are modelled from their formats, not from their code; that a Bn whose sign is neither + nor - is an error is an assumption. Of entries of a map with one key Python keeps the last, the model keeps all and finds the first.'),
 'C95': (P, 'Conditions as in C93 and C94: disjunctions and PowerTwoRange (theorems _partial) only for sub-challenges below the orders (C11, C30); the message must be new; the proofs seen are of statements as in C92. That the signature obtained is one that the issuer has made is a matter of the unforgeability of BBS+ signatures, which is not modelled.'),
 'C93': (P, 'Proved for conjunctions (also with user-defined primitives), DLNotEqual and signatures. Disjunctions and PowerTwoRange (theorems _partial): only for proofs whose sub-challenges are below the orders, since verify() checks no such thing and is then unsound (C11, C30). Two statements are identified through C16: different points must be printed differently, as points of petlib are; points of pairing groups are printed as numbers of 64 bits, and the theorem about signatures does not need this condition.'),
 'C89': ('proved', 'The conditions of C58: values satisfy the statement, secrets with one name have one order, groups of prime order for inequalities and signatures. For k > 0 one secret of one representation, inequality or signature proof of the conjunction must move its commitment (spanned), in a group whose points are encoded differently. Completeness is for all statements of C08 if no inequality has drawn the blinder zero. Disjunctions: see C12 and C62.'),
 'C88': (P, 'Proved for statements without disjunctions (primitives included), inequalities and signatures; for disjunctions and ranges only if the sub-challenges are as many as the branches and of the right size (false otherwise, C11). The precommitments that provers send are such that equal encodings mean equal values (plain; without framing this fails, C36). Q counts the questions of the prover; the verifier asks two more. The statement is fixed in advance, the verifier starts from a state that is not changed by the prover.'),
 'C87': (P, 'Proved for provers that have come to the same precommitment with the same choices; that precommitments and choices have the same distribution is C86 for compositions without disjunctions, and depends on the classes. The statements constructed have no primitives (C75), secrets of or-clauses are not used outside of them (C21), precommitments are not None.'),
 'C81': (P, 'Proved for the attributes of the parts themselves: marks, chosen challenges, precommitments. Refuted for two kinds of changes, because the copies are shallow: the dictionary of values is common (proving an original with values makes the composed statement provable without values), and so are the parts of a part (marking one of them as simulated after composing changes the composed proof).'),
 'C79': (P, 'Proved for statements whose secrets are identified by their names and that have not been used before; for ranges, if both objects were built with the values of x and r. Refuted for ranges built without the values (C47). "The same random numbers" is: the same number for the same secret; the order in which python draws them for one representation depends on the hashes of names and values.'),
}
