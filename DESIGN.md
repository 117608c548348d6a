# Formal model of zksk in Rocq (Coq 8.16.1)

Source: `/repo` (spring-epfl/zksk, pinned commit), read as text. Model: `rocq/theories/*.v`.

## 1. How the code is modelled

| file | content | source |
|---|---|---|
| `Base.v` | results with exceptions, process state (values of `Secret` objects, random tape), monad | – |
| `World.v` | class `World`: groups, points, pairing, hash, textual/binary forms of points, with the laws assumed of petlib/bplib | pairings.py, petlib |
| `Val.v` | Python values that cross an interface (`val`), `str()`, `encode`/`decode` (msgpack with its shortest headers) | base.py, petlib.pack |
| `Expr.v`, `Utils.v` | secrets, dictionaries keyed by secrets, expressions, helpers | expr.py, utils/*.py |
| `Stmt.v` | statement objects, identifiers, recompute_commitment, composition, primitives | composition.py, dlrep.py, extended.py, primitives/*.py |
| `Prove.v` | provers, simulation, `prove()` | composition.py, dlrep.py, extended.py, base.py |
| `Verify.v` | verifiers, `verify()`, interactive verification | same |
| `Bbs.v` | BBS+ keys, issuing (blinded or not), verification of signatures | primitives/bbsplus.py |
| `Heap.v` | expression objects with identity: addition in place | expr.py |
| `Objects.v` | statement objects with identity: attributes (marks, values, precommitments) in a store; construction, prove, verify | composition.py, dlrep.py, extended.py |
| `Names.v` | generated names of Secret objects, with objects at addresses | expr.py |
| `Pairings.v` | class `Bp` (what is assumed of bplib), the wrapper classes of bilinear groups and their serialization | pairings.py |
| `Session.v` | one verifier object used several times, with the object afterwards; what it may have been used for | base.py, extended.py |
| `Failed.v` | `get_prover()` with the object that is left when it fails; sequences of failed calls | composition.py, dlrep.py |
| `Used.v` | objects with primitives used before by calls that succeeded or failed (specification of C72) | composition.py, extended.py |
| `Custom.v` | primitives defined by users: arbitrary methods `precommit`, `construct_stmt`, `simulate_precommit`, `validate`, on their own | extended.py, composition.py, base.py |
| `Mixed.v` | conjunctions of such objects and of statements of the main model; the last part is specification | extended.py, composition.py, base.py |
| `MixedOr.v` | disjunctions of such objects, with their marks, and of statements of the main model; the last part is specification | extended.py, composition.py, base.py |
| `Nested.v` | such objects anywhere in nested conjunctions and disjunctions, both protocols; the last part is specification | extended.py, composition.py, base.py, utils/debug.py |
| `Tutorial.v` | the two primitives that the documentation defines as examples, as classes of `Custom.v` | examples/primitive_*.py, docs/new_primitives.rst |
| `ZqWorld.v` | an instance of `World` (integers modulo a number, toy hash) for the examples | – |
| `Spec.v`, `Claims.v`, `Shapes.v`, `Honest.v`, `Clauses.v`, `Supply.v`, `Extract.v`, `Runs.v`, `Views.v`, `Ident.v`, `Occur.v`, `Alike.v`, `Distrib.v`, `Places.v`, `Sharing.v`, `Blank.v`, `Cheat.v`, `Answers.v`, `Unlink.v`, `TutorialSpec.v`, `Renamed.v`, `Sources.v`, `Request.v`, `Copies.v` | specifications: vocabulary of the theorems (linear combinations, truth of statements, shape of statements, situation of an honest prover, parts of conjunctions, extraction, leaves of a run, identifiers) | – |
| all other files except those of the next two rows | lemmas | – |
| `Ex.v`, `ExTree.v`, `ExObj.v`, `ExPair.v`, `ExSession.v`, `ExUnlink.v`, `SourceEx.v`, `CopyEx.v` | objects used in the examples | – |
| `NestedSim.v` | `simulate()` and `verify_simulation_consistency()` of such compositions | composition.py, extended.py |
| `TreeZk.v` | vocabulary of C86: whole conversations of such compositions, simulated ones, classes whose precommitments hide values | extended.py, composition.py |
| `TreeWi.v` | vocabulary of C87: two provers of one composition, what a prover object has decided, prove() after precommit() | base.py, composition.py |
| `Opening.v` | vocabulary of C30, C54, C88: how a bit and the opening of its commitment, and the value and opening of a commitment to a number, are computed from two proofs | rangeproof.py |
| `Oracle.v` | vocabulary of C88: programs that ask for hash values, lazily sampled random functions, verify() with questions instead of sha256 | base.py, composition.py |
| `OracleTree.v` | vocabulary of C90: prove() and verify() of compositions with user-defined primitives with questions instead of sha256 | base.py, composition.py, extended.py |
| `OracleTreeSim.v` | vocabulary of C91: a simulator for such conjunctions that chooses an answer of the random function | base.py, composition.py, extended.py |
| `OracleMany.v` | vocabulary of C92: someone who asks questions and gets many proofs | base.py, composition.py |
| `Chosen.v` | vocabulary of C93: a prover who asks questions and then hands over a statement and a proof | base.py, composition.py |
| `ChosenTree.v` | the same with compositions with user-defined primitives (C93) | base.py, composition.py, extended.py |
| `Forgery.v` | vocabulary of C94: someone who has seen proofs of others makes a proof with a new message | base.py, composition.py, extended.py |
| `ForgerySig.v` | the same for statements of the library (C95) | base.py, composition.py, primitives/*.py |
| `MsgSpec.v` | the msgpack format, independent of the decoder of `Val.v` (C96) | base.py (NIZK) |
| `OracleZk.v`, `Chance.v` | vocabulary of C89: prove() with questions instead of sha256, a simulator that chooses one answer, distributions up to a rare event, counting of random numbers | base.py, composition.py |
| `Prop*.v` | the theorems of `MANIFEST.json`, each `exact`-ed, with `Print Assumptions` and examples: `PropArith` (C01, C03–C05, C40, C41), `PropHeap` (C02), `PropZk` (C49), `PropZk2` (C58), `PropMore` (C50, C51), `PropRefuse` (C52, C53), `PropRange` (C54), `PropWrong` (C55, C09 and C19 again), `PropCred` (C56, C57), `PropTalk` (C59), `PropObj` (C60, C61), `PropWi` (C62), `PropPair` (C63, C64), `PropName` (C65), `PropCheat` (C66), `PropAnswer` (C67), `PropEffect` (C68), `PropSession` (C69), `PropUnlink` (C70, C71), `PropFailed` (C72), `PropCustom` (C73–C75), `PropFork` (C76, C77), `PropTutorial` (C78), `PropComplete` (C06–C08, C13), `PropSound` (C09–C11, C14, C15, C28, C35, C38), `PropPrim` (C27, C29–C32), `PropPrim2` (C44–C47), `PropOr` (C11, C12, C24–C26, C37, C42), `PropCompose` (C20–C23, C43, C48), `PropId` (C16–C19), `PropWire` (C36, C39), `PropBbs` (C33, C34), `PropSource` (C79), `PropRequest` (C80), `PropCopies` (C81), `PropMixed` (C82), `PropMixedOr` (C83), `PropNested` (C84), `PropNestedSim` (C85), `PropTreeZk` (C86), `PropTreeWi` (C87), `PropOracle`, `PropOraclePrim` (C88), `PropOracleTree` (C90), `PropOracleTreeSim` (C91), `PropOracleMany` (C92), `PropChosen`, `PropChosenTree` (C93), `PropForgery` (C94), `PropForgerySig` (C95), `PropMsg` (C96), `PropOracleZk` (C89) | – |

Conventions:

* A Python function is a total Gallina function. An exception is a value (`Err EValueErr`, ...).
* Statement, prover and verifier objects are trees (values). A method that mutates its object returns
  the new object. Consequently two references to one statement object are not tracked in the main model
  (`copy.copy` in `AndProofStmt.__init__` is shallow). For expressions the difference is treated in `Heap.v`; for
  statements in `Objects.v`, where the main model is shown to be right for statements without repeated objects (C61).
* `Secret` objects have an identity (`sid`, a natural number) and a name; their `value` attribute lives in
  the process state. `Secret.__eq__`/`__hash__` are modelled as written (same name and same current value).
* Randomness is a tape `nat -> Z` consumed left to right; a draw below `n` is `tape i mod n`. Theorems
  quantify over all tapes. There is no probability theory: zero-knowledge statements are bijections
  between randomness spaces or, for refutations, deterministic distinguishers.
* Responses, commitments and precommitments received from the other party are arbitrary `val`s, so the
  adversary may send values of any shape; a shape the code cannot handle leads to the exception Python raises.
* The hash function is an arbitrary function `sha256 : bytes -> bytes`; no theorem assumes it injective.
  Statements "unless there is a collision" exhibit the collision.

## 2. Trusted base

* Coq's kernel (8.16.1). Every theorem in `Prop*.v` is followed by `Print Assumptions`; the expected
  output is "Closed under the global context" for all of them (section 4).
* The fidelity of the hand-written model to the Python text. Each definition cites file and lines.
* The laws in `World` (abelian groups, exponent `order`, bilinearity), which stand for petlib/bplib/OpenSSL.
  They are hypotheses (fields of a class over which theorems quantify), with a concrete instance `ZqWorld`.

Not modelled: performance, warnings and prints, `repr` of statements, examples and documentation (apart from the
two example primitives in `Tutorial.v`), multi-threading, the byte-level curve arithmetic, garbage in Python types that are not
in `val` (floats, objects of other classes; classes derived from `ExtendedProofStmt` are in `Custom.v` to `Nested.v`), the state of objects after an exception has been raised and caught (`Session.v` allows anything to be left in
the parts that the interrupted call may have changed; `Failed.v` models it for `get_prover()`).

## 3. Plan per property

| id | property | model / proof plan |
|---|---|---|
| C01 | Expression evaluation is the weighted sum | Expr.v: expression as list of terms; proof by induction that eval folds to the specification sum. |
| C02 | Adding expressions does not change the operands | Heap model of Expression objects (`__add__` extends the left operand in place). False as stated: refuted by a heap; what is true (result, right operand when distinct) proved. |
| C03 | Modular sum | Utils.v; induction on the list. |
| C04 | Residual challenge completes the or-challenges | Utils.v; from C03 and modular arithmetic. |
| C05 | Bit decomposition | Utils.v (is_bit_set, num_bits on Z); Z.testbit lemmas. |
| C06 | Completeness of a discrete-log representation proof (interactive) | Instance of C07 for a single DLRep, stated with an explicit equation. |
| C07 | Completeness for every and/or tree (interactive) | Induction over statement trees: relation between prover state and statement, commit/response/recompute. |
| C08 | Completeness of non-interactive proofs between two parties | C07 + identical precommitments, identifiers and hash inputs on both sides; renaming of secrets. |
| C09 | Wrong secrets are rejected | Algebra: recomputed commitment differs by c*(sum - lhs). |
| C10 | Special soundness of and-trees, with shared secrets | Extraction by division modulo a prime; response consistency gives one dictionary for the whole tree. |
| C11 | An accepted or-proof needs a true branch | Refuted: explicit forging function (extra sub-challenge; CRT). Partial: soundness when the sub-challenges are as many as the branches and in [0, 2^128). |
| C12 | An or-proof hides which branch is real | Refuted: the sign of the sub-challenge identifies the branch. Distinguisher proved correct for all runs. |
| C13 | Simulated transcripts satisfy the verification equation | Induction over trees, partial correctness of simulate_proof against recompute. |
| C14 | Honest-verifier zero knowledge of discrete-log representation proofs | Bijection of randomizers (explicit shift by c*x mod order). |
| C15 | A simulated transcript only verifies if the hash happens to match | Unfolding verify_nizk on a consistent transcript + C13. |
| C16 | A proof is bound to its statement | Precedence of exceptions by unfolding; injectivity of str() on identifiers (Val.v) and structure of get_proof_id. |
| C17 | Secret names do not matter | Induction over trees; identifier depends on the partition of names only; acceptance through the same induction. |
| C18 | A signature proof is bound to its message | From the code of build_fiat_shamir_challenge: the hash input ends with the message. |
| C19 | The challenge hash input determines what is hashed | Prefix-freeness of the msgpack model. Refuted for raw bytes precommitments (not framed). |
| C20 | Re-occurring secrets get equal responses | Induction over trees: dictionary passed through conjunctions equals the list of all (secret, response) pairs. |
| C21 | Secrets re-occurring inside and outside an or-proof are refused | Counting lemma (count in tree > count in or-clause iff occurs outside). Verifier part refuted (it never runs the check). |
| C22 | Shared secrets need groups of one order | Dictionary lemma for the prover; the verifier accepts only one integer for all groups. |
| C23 | Infix composition is flat and associative | Case analysis on the operands; list associativity. |
| C24 | A branch marked simulated is never the real one | Invariant of the choice loop. |
| C25 | Secrets for one branch are enough for an or-proof | Refuted for conjunction branches (And.get_prover raises) and for primitives (their get_prover never refuses, so precommit raises). Proved for branches whose get_prover returns None (partial). |
| C26 | A statement can be proved repeatedly | Refuted: set_simulated() in DLRep.get_prover. Proved for and-trees of DLReps. |
| C27 | Inequality of discrete logarithms: completeness | Primitive-specific algebra on top of C08. |
| C28 | Inequality of discrete logarithms: soundness | From C10 on the constructed conjunction. |
| C29 | Power-of-two range proof: completeness | Algebra (binary expansion) on top of C08. |
| C30 | Power-of-two range proof: soundness | Refuted: extra entry in Cs. Partial: exactly n commitments; the bits and openings are computed from two proofs (`RangeX.v`), since in a cyclic group some opening always exists. |
| C31 | Range proofs hide the value | Refuted: function reconstructing the value from the transcript. |
| C32 | Generic ranges reduce to two power-of-two ranges | Integer arithmetic with Z.log2; refuted part: n <= 1 raises ValueError. |
| C33 | BBS+ signatures verify | Bilinearity. |
| C34 | A BBS+ signature is bound to the whole message list | Refuted (zip truncation); partial for lists not longer than the key. |
| C35 | Proof of knowledge of a BBS+ signature: completeness and soundness | Completeness by algebra on top of C08; soundness by extraction. |
| C36 | Serialization round-trip | Round trip of the msgpack model; refuted for GT points (group identity). |
| C37 | Custom extended primitives work inside compositions | Refuted: simulate_precommit raises; empty precommitment dropped by any(). Proved for conjunctions. |
| C38 | Two responses to one commitment reveal the secrets | Division modulo a prime. |
| C39 | An accepted proof cannot be changed into another accepted proof | Refuted: add the order to a response. For any tree: equal hash inputs give equal recomputed commitments at every place; subtract the verification equations. |
| C40 | Generators are a deterministic function of the seed | Definition unfolding + list lemma; refuted: consecutive seeds overlap. |
| C41 | Random numbers stay in range | Bounds of mod. |
| C42 | The two proofs of one prover are independent | Refuted by two-run examples in the model with state. |
| C43 | Secrets with the same name are the same secret for the verifier | Refuted by an environment giving two same-named secrets different values. |
| C44 | Extended statements can be run interactively | Refuted: TypeError from the keyword argument; proved for conjunctions. |
| C45 | A range-only proof can be verified by somebody else | Refuted: fresh commitment in each statement. |
| C46 | Inequality of discrete logarithms in two groups | Refuted: neutral element of the other group as precommitment. |
| C47 | Values of a range proof can be supplied when proving | Refuted by running construct_stmt without values. |
| C48 | A mark set with set_simulated survives composition | Refuted for disjunctions, proved for conjunctions. |
| C49 | Conversations of conjunctions are simulated | Explicit functions of the drawn dictionary; shift of the random numbers by value times challenge. |
| C50 | Inequalities and ranges in every group | Expected false for GT: the wrapper of GT elements has no subtraction. |
| C51 | Verdict independent of earlier uses | A life of an object keeps everything but flags, captured values, precommitments and inner statements; an accepted run replaces the latter two everywhere. |
| C52 | Statements mixing groups are never verified | Constructors by computation; an accepted response has a value for each secret, so wsum adds all bases to the zero of the group of the left-hand side and fails. |
| C53 | One randomizer per secret | A dictionary that covers all secrets of the conjunction is passed down unchanged; the given entries survive its completion. |
| C54 | Generic ranges: soundness | C30 for both reduced commitments from one extraction; the two openings give a relation or the bounds. Forgery by an opening of any value and C30's forgeries. |
| C55 | Wrong values in a conjunction | Follow the path to the part through get_prover, precommit, commit, response and recomputation; equal hash inputs give equal first messages at the path, as the binary format is a prefix code up to points with one binary form. |
| C56 | Issued signatures can be proven | C33 composed with C35; names and values of the secrets from their lists. |
| C57 | Accepted blindings | Special soundness over the bases of the key, padded with zeros; signing equation. |
| C58 | Whole conversations are simulated | Bijection of the random numbers of the precommitments (invertible multiples of a generator), then the shift of C49 by an amount that depends on them. |
| C59 | Interactive runs are about one statement | The hash check of send_challenge, inverted; C16 for the statements of both parties. |
| C60 | Statements with common parts | Store model (`Objects.v`): which attributes prove and verify write (frame), and simulation of the store by the value model. Refuted by two programs. |
| C61 | Repeated statement objects | The store model simulates the value model for trees without repeated objects; copies made by constructors are new. Refuted for repeated compositions. |
| C62 | Values do not show | Coupling of two runs: choices and simulations do not read values; then the randomizers of one run are those of the other shifted by (w - w') times the challenge, which is itself a function of the (equal) commitments. |
| C63 | Wrapped points | Model of pairings.py over a class `Bp` whose laws exclude the exponent 0 in GT; the laws for all exponents, and a `World` made of the points of one pair object with all operations in agreement. |
| C64 | Sent points and pair objects | Same model; identity of pair objects. Refuted: groups of decoded points, `BilinearGroupPair(bp_group)`. |
| C65 | Generated names | CPython's object hash (rotation of the address) is injective on live objects; hexadecimal digits of a hash prefix. Refuted over time. |
| C66 | One challenge | From C10, C11, C28: two accepted challenges below 2^128 differ by less than the order, so they would give a witness. |
| C67 | Every message is answered | Forms of messages (`formed`, `preformed`); totality of processing, consistency check and recomputation on them. Refuted for other messages: exceptions of Python itself. |
| C68 | Effects on Secret objects | A relation between the values before and after that every step of proving satisfies (only given and auxiliary secrets change, given values stay); verification keeps the whole state. |
| C69 | Reused verifier objects | Processing a precommitment that reaches all primitives overwrites everything stored earlier, so the whole computation is equal to that of a new object. Refuted for the precommitment None. |
| C70 | Unlinkable proofs | Both runs are one public function (a simulation of the verifier's statement) of moved random numbers; the move depends on the challenge, the challenge on a part that is the same for every challenge. Composing one move with the inverse of the other gives the bijection between the two provers' random numbers. |
| C71 | Keys of malicious issuers | Refuted: with a neutral third generator the blinding of A vanishes. |
| C72 | Failed attempts | The failed calls change marks and captured values only; all values being given, the captured ones are overwritten before they are read, and nothing else reads them: both runs in lock-step. With primitives (`Used.v`, `UsedProofs.v`): the constructed statements are overwritten by precommit(), so that anything may have been left in them. Disjunctions: a refusal leaves every branch marked or, if it is a disjunction, in the same situation. |
| C73 | User-defined primitives: completeness | The methods are arbitrary functions; the run of the constructed statement is that of C07/C08. The library's kinds are instances (equations between runs). |
| C74 | User-defined primitives: soundness | From C10 on the constructed statement. |
| C75 | Primitives in primitives | Refuted: get_proof_id raises on a statement with an unconstructed primitive, at any depth. |
| C76 | Two NIZKs with the same first messages | Both are answers of one prover to two challenges (C09–C11 apply); contrapositive for false statements. |
| C77 | Random numbers used twice | Both runs agree up to compute_response; at each place C38 or, in a simulated branch, the same challenge. |
| C78 | The primitives of the documentation | The methods agree with those of a modelled primitive on every state; C06, C09 and C27 apply. |
| C79 | Values from objects or dictionary | A statement with all total values recorded behaves as each of the two, step by step (`SourceProofs.v`); representations at the root separately, where the objects never get the values. |
| C80 | Blind requests hide the messages | prove() of a representation with different names in closed form (`RequestProofs.v`); blinding and randomizers are moved by the difference of the messages, the challenge stays. |
| C81 | Composing copies the statements | The objects of a composed statement are new or lie below a part (`CopyProofs.v`, from `ObjBuild.new_ok`), so `view` does not depend on the attributes of the originals. The dictionary of values and the parts of parts are shared: refuted. |
| C82 | User-defined primitives in conjunctions | The conjunction after precommit() is a statement of the main model whose primitives are stand-ins with the constructed statements (`MixedProofs.v`), for which the lemmas of C07, C08 and C10, C11 hold. With the library's kinds as classes both models do the same (equations between runs, `MixedLink.v`). |
| C83 | User-defined primitives in disjunctions | As C82: the branches simulated and the one proved become a disjunction of the main model with stand-ins (`MixedOrProofs.v`), for which the lemmas of C12 and C11 hold (`MixedOrProofs2.v`, `MixedOrSound.v`, `MixedOrLink.v`). Refuted if all precommitments are empty. |
| C84 | User-defined primitives anywhere | As C82 and C83, by induction over the tree: every run of the nested model is a run of the main model on a tree with stand-ins (`NestedProofs*.v`, `NestedSound.v`); for classes of the library both models are equal (`NestedLink.v`). |
| C85 | Simulation with user-defined primitives | The lemmas of C84 about simulated branches, applied to the whole tree. |
| C86 | Zero-knowledge of user-defined primitives | The bijection of random numbers of C58, abstracted from the precommitment phase (`TreeZkProofs.v: phase_zk`): for any program that gives a prover and a statement without disjunctions and one that gives the same statement, with coupled random numbers. By induction over the tree the classes' bijections make one for the tree. |
| C87 | Values hidden after the precommitments | The tree with its constructed statements is a statement of the main model without primitives (`TreeWiProofs.v: flat`), for which the coupling of C62 (`WiCouple.v`) holds; commitments and responses of both are equal. |
| C88 | Random oracle model | A counting form of the forking lemma (`Forking.v`): if accepted lists of answers are too many, two of them agree before one answer, accept, and have incongruent challenges there. The question for the challenge contains statement, precommitment, commitment and message, so (C36) both proofs are about the same, and C10 extracts (`OracleProofs.v`); likewise C35 for signatures and C30, C54 for ranges (`OraclePrim.v`). |
| C89 | Random oracle model: zero-knowledge | The bijection of C58 holds for a challenge that is chosen after the statement is known (`phase_with`, `ZkPre.v`); the simulator's question is then the prover's, and the two games go on in the same way (`OracleZkProofs.v`). One random number moves the commitment of a representation, which may be one inside an inequality, a signature proof or a row of a user-defined primitive (`spanned`, `OracleZk.v`), so at most one of its values hits an earlier question. `ChanceProofs.v` turns bijections into counts. |
| C90 | Random oracle model: user-defined primitives | The forking lemma of C88 for the game with [tverify_ro]; two proofs with one question have one precommitment, so the methods of the classes have made the same statements, and C84 extracts (`OracleTreeProofs.v`). |
| C91 | Random oracle model: zero-knowledge with user-defined primitives | The coupling of C89 starts from any opening phase that C86 describes (`phase_couple` in `OracleZkProofs.v`); a representation inside a constructed statement is enough for the bound (`OracleTreeSimProofs.v`). |
| C92 | Random oracle model: many proofs | Hybrid argument: the first proof is replaced by a simulated one (C89, C91; what follows is a program that asks questions, for every choice of the other random numbers), then induction; the counts over all random numbers add up (`OracleManyProofs.v`). |
| C93 | Random oracle model: the prover chooses the statement | Forking (C88) with the statement as part of the result: both runs ask the same question, so by C16 both statements are the same up to wrappings of one clause (`alike`), and the extractor of C06/C09/C48 applies |
| C94 | Random oracle model: proofs after seeing proofs | Real proofs are replaced by simulated ones (C92). The simulated game is one program, in which the questions of the adversary and the challenges of the simulators have different names and the answers the simulators have set are a table; entries of the table have the messages of the proofs (C19), so the decisive question of a new message was really asked, and the program is forked as in C93 (`ForgeryProofs.v`). |
| C95 | Random oracle model: credentials after seeing proofs | The game of C94 with `verify_ro`; the end of the proof is that of C93 (`ForgerySigProofs.v`). |
| C96 | Which byte strings are proofs | Mutual induction over values, lists and maps in one direction, induction over the fuel of the decoder in the other (`MsgProofs.v`). Another encoding: the header of the array in another size. |

Statements that turn out false of the code are kept in `properties.jsonl` as the user expects them; the manifest
marks them `partial`, with a `_refuted` theorem and, where possible, a theorem for the part that holds.

## 4. Assumptions

`Print Assumptions` answers "Closed under the global context" for every theorem of `MANIFEST.json`: no axiom is used,
neither of the standard library nor of our own. (`coqchk` also lists the parameters of the module types of
`Coq.ssr.ssrunder`, which the standard library loads; no theorem depends on them.)

## 5. Simplifications and known gaps

* `Secret` names are given in `Expr.v` (a name is any string); the generation of names from object addresses is in
  `Names.v` and shows that generated names satisfy what is assumed of names elsewhere (`wfL`).
  Python's hash of a name is taken as injective.
* `G2Group` and `GTGroup` have no `__eq__` (pairings.py): groups are compared by identity there. In the model a `gid`
  stands for one group object of the key, so that comparison is equality of `gid`s; a decoded point of a pairing group
  is in a group of its own (C36). In the library a decoded point of G1 *is* in a group equal to the original one
  (`G1Group.__eq__`), but its pairings are in another GT (C64, over the model of pairings.py). A `World` has one target
  group for a pair of groups and cannot tell these apart; the refutation of C36 for signatures (InvalidExpression) is
  therefore about a decoded point in another G1, while in the library the same exception comes from the third clause of
  the same statement, whose bases are pairings.
* `EcGroup.wsum` of petlib is compiled code; it is modelled like `wsum` of pairings.py (weights and points are zipped, the
  shorter list decides). No refutation relies on lists of different length in an `EcGroup`.
* Points of GT have no `__sub__`: the field `has_sub` of `World` says which groups have it (C50).
* `repr` of bilinear points is `G1Pt(hash)` with Python's randomised `hash`, hence not injective and different in
  another process. Theorems about identifiers have the injectivity of `repr_pt` as a hypothesis where they need it.
* The precommitment simulated by `DLNotEqual` is drawn in the group of g (also if h is in another group): as written.
* `OrProver` returns nested lists of `None` as precommitment over a simulated conjunction: as written.
* The iteration order of a Python set of secrets is fixed to first occurrence: it only permutes random numbers.
* Messages with parts of 2^32 bytes or more cannot be packed; completeness theorems have this alternative
  (`Big`, `oversized`) instead of a hypothesis on sizes.
* `Objects.v`: the state of the objects is lost when an exception is raised (in Python the attributes written before stay);
  the statement inside an extended statement (`_constructed_stmt`) is a value, built anew by each `full_construct_stmt`; the
  loop over inner precommitments in extended.py:197-201 is left out, as in the main model (it does nothing for the library's primitives; `Custom.v` has it). Expressions are values there.
