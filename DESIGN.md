# Formal model of pymt: design

Source: `/repo` (Nynra/pymt, Python). Everything below is in Rocq/Coq 8.16.1, standard library only.

## Trusted base

* Coq's kernel (and `vm_compute`, used only for concrete examples and refutation witnesses).
* The assumptions that `Print Assumptions` reports; the goal is "Closed under the global context" for every theorem.
  No axioms are added. The hash function is never an axiom: it is an ordinary argument (a class method
  `keccak : bytes -> bytes`) and each theorem states the hypotheses it needs about it.
* The reading of Python into Gallina, i.e. that the definitions in the model files say what the cited lines say.
  Section "Model" lists the simplifications.
* Third-party libraries, modelled from their documented behaviour and not verified:
  * `rlp` (pyrlp): strict codec for nested byte strings/lists, the sedes `binary`, `boolean`,
    `big_endian_int`, `List`, `CountableList`. All decoding failures are one exception value.
  * `Crypto.Hash.keccak`/`hashlib`: a function returning 32 bytes. Theorems about tries and Merkle trees hold for every
    such function. "No collision" is always a hypothesis on the *finite list of byte strings
    actually hashed* in the run (global injectivity would be false for every real hash and make theorems vacuous).
    A real Keccak-256 and SHA-256 are implemented in the model only to run concrete examples and to check the
    model against the root hashes in the repository's tests.
  * `Crypto.PublicKey.RSA`, PKCS1_OAEP, pkcs1_15, AES-EAX: oracles with the usual correctness equations.

## Model

| file | models |
|---|---|
| `Base.v` | bytes, exceptions as values, insertion-ordered dict, fault-injecting storage monad |
| `Rlp.v` | pyrlp |
| `NibblePath.v` | `utils/nibble_path.py` |
| `NibblePathPy.v` | `utils/nibble_path.py` with Python's integers, index errors and list data; `__repr__`, `__str__` |
| `Node.v` | `utils/node.py` |
| `NodeSkeleton.v` | `utils/node.py` with `include_data=False` |
| `Mpt.v` | `mpt.py` (all methods, public and private, except equality) |
| `MptEq.v` | `MPT.__hash__`, `MPT.__eq__`, with CPython's `int(bytes, 16)` |
| `Empt.v` | `empt.py`, and the methods EMPT inherits from `collections.abc.MutableMapping` |
| `EmptShared.v` | EMPT objects that share the default storages |
| `MerkleTree.v` | `merkletools.py`, `mt.py` |
| `MerkleTreePy.v` | `__init__`, counts and ready state of `mt.py`, `merkletools.py`; `__str__`/`__repr__` are in `MerkleTools.v` |
| `ProofObj.v` | `proof.py`: constructor and RLP codec |
| `Json.v` | Python's `str`, UTF-8, `json.dumps` and `json.loads` |
| `ProofJson.v` | `proof.py`: JSON codec, `__hash__`, `__eq__`, iteration; `repr` of `bytes` and tuples |
| `Keypairs.v` | `keypairs.py`; `hash_data`, `encrypt`, `decrypt`, `rsa_key_valid` of `utils/utils.py` |
| `KeyCalls.v` | programs of calls on key pairs: `keypairs.py` with its tests of types, setters, deleters and files |
| `Texts.v` | `Proof.__repr__`, `str(datetime)` as time stamp, `__str__`/`__repr__` of key pairs |
| `UtilsMisc.v` | `utils/hash.py`; `file_exists`, `dir_exists` of `utils/utils.py` with `posixpath.join` |
| `UtilsPy.v` | the rest of `utils/utils.py`: time stamps (without Django), ids, new RSA keys, tests of argument types |
| `MerkleTools.v` | `merkletools.py` used directly: arguments of any type, all methods, `__str__`, `__eq__`, and `src/pymt/examples/merkletools_create_and_proof.py` |
| `EmptViews.v` | `in` on the views of an EMPT, `build_trie` over a storage whose `keys()` is a list |
| `Fleet.v` | several EMPT objects over the same two storages, objects opened on the root of another one, outside changes of the data storage; with `FleetExamples.v` and `ShippedProofs.v` the scripts `examples/empt_*.py` |
| `ShippedKeys.v` | the scripts `examples/sign_and_verify.py`, `encrypted_com.py`, `example_rsa_tools.py`, `mt_create_and_proof.py` |
| `EmptFault.v` | `build_trie` over failing storages |
| `EmptLoop.v` | `__iter__` of EMPT and the iterators of its views, with a body that calls the EMPT; the data storage is a dict: its iterator raises RuntimeError when the number of keys changed; after keys were replaced by as many others the model does not say what comes next |
| `EmptSets.v` | the operators of `collections.abc.Set` on `keys()` of an EMPT, which `MutableMapping` provides (`src/pymt/empt.py:93`); written from `_collections_abc.py` of Python 3.11; the other side is a set or `keys()` of an EMPT; a resulting set is the list of the elements put into it |
| `Threads.v` | `update`, `delete`, `get`, `contains`, `get_proof_of_inclusion`, `root`, `root_hash` of `src/pymt/mpt.py` again, as programs whose steps are the single reads and writes of `self._root` and of the storage; a schedule is a list of calls begun and of turns |
| `EThreads.v` | `update`, `delete`, `get`, `get_reference`, `contains`, `get_proof_of_inclusion`, `root`, `root_hash` of `src/pymt/empt.py` again, as programs whose steps are the single accesses to the data storage and the steps of `Threads.v` |
| `MtThreads.v` | `put`, `get`, `get_count`, `make_tree`, `get_merkle_root`, `get_proof_of_inclusion`, `verify_proof_of_inclusion` of `src/pymt/mt.py` and what they call in `src/pymt/merkletools.py` again, as machines whose steps are the single accesses to the leaves, the levels and the ready flag |
| `Watch.v` | `get_proof_of_exclusion`, `verify_proof_of_inclusion`, `verify_proof_of_exclusion` of `src/pymt/mpt.py` again, cut at their accesses to the root and the storage, beside the calls of `Threads.v` |
| `Several.v` | several objects of `src/pymt/mpt.py` over one dict, with the calls of `Threads.v` |
| `Opening.v` | objects of `src/pymt/mpt.py` over one dict, made new or on the root of another one at any moment (lines 54-75), with the calls of `Threads.v` |
| `Copying.v` | `src/pymt/empt.py` 331-364 (get_sparse_trie, get_root_trie) in steps of one dict access, beside the calls of `Threads.v` on the same trie; an iterator step after the dict changed its size raises RuntimeError, as CPython's does |
| `Walking.v` | `src/pymt/empt.py` 187-193 (`__iter__`) with the iterator of CPython's dict, beside the calls of `EThreads.v`; once keys were removed and as many added, which key comes next is left open |
| `Mixins.v` | `pop` and `setdefault` that `EMPT` (`src/pymt/empt.py` 93, 195-205) inherits from CPython's `MutableMapping`, beside the calls of `EThreads.v` |
| `Popitem.v` | `popitem` that `EMPT` (`src/pymt/empt.py` 93, 191-205) inherits from CPython's `MutableMapping`, on top of `Mixins.v` |
| `Clearing.v` | `clear` that `EMPT` (`src/pymt/empt.py` 93, 191-205) inherits from CPython's `MutableMapping`, on top of `Popitem.v` |
| `Keccak.v` | executable Keccak-256 and SHA-256 for examples and test vectors |

Conventions:
* A Python call is a function returning `Ok v` or `Err e`; every `raise`, failing `assert`, failed lookup is an `Err`.
* Operations that write storage run in a state monad. Each storage access of such an operation consumes one entry of a
  *fault list*; `true` makes this access raise. Quantifying over the fault list covers all crash points.
* Recursive methods take the number of Python frames still available; at 0 they raise RecursionError.
* In-place mutation of a `NibblePath` (`consume`) is modelled by returning the consumed path wherever the caller looks at
  it again.
* The storage carries a ghost list of every encoding hashed while writing. It is never read by the
  model; it is used to state "no collision".

Simplifications (also repeated at the definitions):
* Recursion depth counts only the trie recursion, not helper frames or the RLP codec's recursion.
* Exception messages, logging and timestamps of proofs are not modelled (the timestamp is an input).
* Arguments are of the documented type unless the method itself tests the type.
* `bytes` and `bytearray` are identified except where the code distinguishes them (EMPT values).
* One thread: no concurrent access to one object, except in `Threads.v` and `Watch.v` (MPT, C219 to C226, C251 to C255), `Several.v` (MPT objects with a common storage, C256, C257), `Opening.v` (objects made during the run, C258 to C260), `Copying.v` (copies of the trie made during the run, C262 to C265), `Walking.v` (iterators over an EMPT, C267 to C269), `Mixins.v` (pop and setdefault, C270 to C272), `Popitem.v` (C273, C274), `Clearing.v` (C275, C276), `EThreads.v` (EMPT, C230 to C236) and `MtThreads.v` (MerkleTree, C239 to C247).
* Merkle tree: a `str` of the code is the list of its UTF-8 bytes; `int(index / 2.0)` is exact integer division (true
  below 2^53 leaves); elements of a proof are `bytes` or pairs of `bytes`; the constructor's test of `hash_type` is in
  `MerkleTreePy.v`, the chosen hash is the class argument; leaves are put as `bytes` or as some other type (which raises).
* Merkle tree: `levels[-1]` is the same list object as `leaves`; the model keeps this aliasing (see C47, C79).

* JSON: a `str` is the list of its code points; `json.loads` keeps numbers as text and does not run into the recursion
  limit or the limit on digits of integers. A `Proof` is compared with another `Proof`.
* Key pairs: RSA, OAEP, PKCS#1 v1.5, AES-EAX and SHA-2 are fields of the class `Crypto`, any functions; theorems assume the
  correctness equations of `crypto_ok` (`SpecKeys.v`), nothing about secrecy or unforgeability. `KeysExamples.v` has an
  instance that meets them. Random choices are arguments. Nicknames that are not
  strings (possible after loading) are compared by their JSON text. The file system maps names
  to text; a failing write stops after any number of characters.

## Not modelled
`utils/utils.py` with Django installed, `get_datetime_stamp`, `generate_ecc_key`; `base.py` (abstract classes without behaviour).
`old_examples` of the repository imports a package `trie` and names that `pymt` does not have; it is not part of the package.
The file system of `file_exists` is a predicate on places (components and "must be a directory"), without `..` and links.

## Proof architecture

* `RlpProofs.v`, `NibbleProofs.v`, `CodecProofs.v`: codecs are lossless and canonical.
* `SpecRlp.v`: RLP and hex-prefix texts as the relations of the Yellow Paper. `RlpExact.v`, `DecodeExact.v`, `SkeletonProofs.v`: every
  coder is exactly its relation. `Malleable.v`: proof verification only looks at what nodes are read as.
* `Tree.v`: abstract trees with `lookup`, `upd`, `del`, canonical form `wf`, and uniqueness: two canonical trees with the
  same lookups are equal.
* `MptRefine.v`: on a store that holds all nodes of a tree, every MPT method returns what the abstract operation
  returns, also under faults (a failed call leaves the tree intact).
* `WalkProofs.v`, `PoeExact.v`: `halt`, the node at which a walk for an absent key stops, and what it says about the set of keys
  (`SpecWalk.v`); `trail`, the nodes of an exclusion proof. `MptGetExact.v`: the bytes-level reading for `get`.
* `SparseProofs.v`: `sinv`, a SparseEMPT against an MPT holding encoded references. `ChainProofs.v`: who refers to the nodes of an
  exclusion proof.
* `EmptProofs.v`: invariant of an EMPT under every history with failing storages: the trie is a reachable MPT, keys
  known to be present have their value in the data storage and its reference in the trie, absent keys are in neither.
* `MtProofs.v`, `MtProofs2.v`, `MtSound.v`, `MtRlp.v`: the list of levels of a built tree against the recursive tree over
  the leaves (`tree_of`), completeness and soundness of proofs, histories, RLP of proofs.
* `JsonProofs.v`: `loads` inverts `dumps`, the UTF-8 codec is exact. `ProofJsonProofs.v`: JSON of proofs, and the text hashed
  by `==` determines the proof.
* `SpecJson.v`: the grammar of JSON texts and the UTF-8 table as relations, independent of the parser. `JsonGrammar.v`: `loads`
  returns a value exactly for the texts of this grammar. `SpecWire.v`, `JsonExact.v`: the texts and messages that are accepted.
* `KeysProofs.v`: messages, signatures, key strings and files from the oracle equations and `JsonProofs.v`; `SpecKeys.v` also has
  the attackers' programs `forward` and `forge`.
* `SpecPath.v`, `PathPyProofs.v`: path objects against their nibbles. `SpecText.v`, `TextProofs.v`, `TextProofs2.v`: bytes literals as a
  grammar, order of time stamps, places of file names, exceptions of `decode_json`.
* `SpecYp.v`: the tree of a set of pairs after appendix D of the Yellow Paper, as relations on the set. `YpProofs.v`, `YpEmpt.v`: the
  relations are functional and are met by the trees of `Tree.v`. `SpecCost.v`, `CostProofs.v`: a store action with its number of
  accesses and writes.
* `SpecShared.v`: tries with part of a storage, tries that share one. `SimProofs.v`: a call on a larger storage does the same or the
  smaller one raises KeyError. `SharedProofs.v`, `StatelessProofs.v`, `GrowthProofs.v`: the theorems. `SpecAudit.v`, `AuditProofs.v`:
  audit paths of RFC 6962. `SpecAccept.v`, `AcceptProofs.v`: which proofs are accepted, as relations on their texts.
* `MerkleTreePy.v`: creating Merkle trees, counts, the methods that only raise. `SpecMtObj.v`: what every call on a MerkleTree does, as a
  relation on the values put and the last build. `MtTextProofs.v`, `MtObjProofs.v`, `MtStaleProofs.v`, `MtPyProofs.v`: the model does that.
* `MptHash.v`: the built-in `hash` of a trie, `==` with any object. `SpecInt.v`: the texts that `int(b, 16)` takes. `IntProofs.v`: the model
  of `int(b, 16)` is exact, and so are `hash` and `==` of tries.
* `SpecVerdict.v`: what `Node.decode` raises, and what verification of a trie proof answers or raises, in terms of the texts in the proof.
  `VerdictProofs.v`: the model does exactly that.
* `EmptPy.v`: calls on EMPT and SparseEMPT objects with keys of any type, the views and the equality EMPT has from
  `collections.abc.Mapping`. `SpecEvery.v`: what every call does, in terms of the two storages as lists and maps.
  `EveryProofs.v`, `EveryProofs2.v`: the model does that after any calls, whether or not they raised.
* `SpecDecode.v`, `DecodeProofs.v`: what the decoders raise. `SpecDepth.v`, `DepthProofs.v`: the recursion limit.
  `SpecData.v`, `DataProofs.v`, `DataRefutations.v`: EMPTs over a data storage that somebody else filled.
* `MptPy.v`: sessions of calls on an MPT. `SpecMptEvery.v`, `MptEveryProofs.v`, `MptEveryExamples.v`: what every call answers.
* `SpecLoose.v`: what a plain trie holds when values may be empty. `LooseProofs.v`: trees whose branches may have one child and no
  value, and updates, deletes and reads on them. `LooseThms.v`, `LooseExamples.v`, `LooseRefutations.v`: C182, C183. `LoosePoi.v`: C184.
* `KeyCalls.v`, `SpecKeyCalls.v` (keys and nicknames that a list of calls leaves; unfit arguments), `KeyCallsProofs.v`: C185-C189.
* `UtilsPy.v`, `SpecUtils.v` (bits of an id, seconds), `UtilsProofs.v`: C190-C193.
* `SpecTools.v` (what arguments mean, what calls do to the list of values and the stage of the tree, texts of levels),
  `ToolsProofs.v`, `ToolsProofs2.v`: C194-C198. `SpecViews.v`, `ViewsProofs.v`: C199, C200.
* `SpecFleet.v` (what calls on objects with common storages do), `FleetProofs.v`: C201, C202. `FleetPoi.v`: C204.
  `FleetExamples.v`, `ShippedProofs.v`: the shipped EMPT scripts, C203, C205, C206.
* `ShippedKeysProofs.v`: C207, C208. `SpecFault.v`, `EmptFaultProofs.v`: interrupted builds against reachable EMPTs, C209, C210.
* `SpecReplica.v`, `ReplicaProofs.v`: copies of an EMPT kept by others, C211, C212, C213. Model functions are those of `Mpt.v` and `EmptPy.v`.
* `SpecLoop.v`, `LoopProofs.v`, `LoopProofs2.v`: loops over an EMPT, C214, C215, C216.
* `SpecSets.v`, `SetsProofs.v`: set operations on the keys of EMPTs, C217, C218.
* `SpecThreads.v`, `ThreadsSeq.v`, `ThreadsProofs.v`, `ThreadsPool.v`, `ThreadsSerial.v`, `ThreadsAlone.v`, `ThreadsRace.v`, `ThreadsExamples.v`:
  calls of several threads on one MPT, C219 to C226.  `Threads.v` repeats the functions of `Mpt.v` in a form in which other calls can come
  in between; `C222_alone` says that without interruption they are the functions of `Mpt.v` (with one difference: `contains` of `Mpt.v` on a
  trie in which nothing was ever stored answers False even with no frame of stack, the code and `Threads.v` raise RecursionError there).
  Assumed of the interpreter: a read or write of an attribute or of an entry of a dict is one step, nothing is reordered, and the storage
  is a dict (that a storage raises is part of `Mpt.v`, not of `Threads.v`).  Proofs of exclusion and the
  verifications are not part of these schedules.
* `MoreProofs.v`, `PropertiesMore.v`: additions to C06, C73, C82, C113 and C119 found when statements and theorems were
  compared once more: a delete of an absent key leaves the storage as it was, questions keep the values of a Merkle tree,
  sides of siblings and positions, printable ASCII in JSON texts.
* `SpecErrors.v`, `ErrorsProofs.v`: the exceptions of `decrypt` and of loading keys, C227 to C229.
* `SpecEThreads.v`, `EThreadsRun.v`, `EThreadsSerial.v`, `EThreadsAlone.v`, `EThreadsTrace.v`, `EThreadsRead.v`, `EThreadsRace.v`, `EThreadsExamples.v`:
  calls of several threads on one EMPT, C230 to C236.  A schedule of calls on an EMPT is mapped to the schedule of the calls these make on its
  trie, so that C219 to C221 apply there.  `C236_alone` connects `EThreads.v` with `Empt.v`.  The assumptions on the interpreter are those
  stated for `Threads.v`; the methods of the dict interface and the proofs of exclusion are not part of these schedules.
* `SpecValues.v`, `ValuesProofs.v`: which values the stores take and which they refuse, C237, C238.
* `SpecMtThreads.v`, `MtThreadsRun.v`, `MtThreadsSerial.v`, `MtThreadsBuild.v`, `MtThreadsOne.v`, `MtThreadsKind.v`, `MtThreadsRace.v`,
  `MtThreadsClaims.v`, `MtThreadsEnds.v`, `MtThreadsExamples.v`: calls of several threads on one MerkleTree, C239 to C247, C250.  `C240_alone` connects `MtThreads.v` with
  `MerkleTree.v`.  `reset_tree`, `put_list` and the comparison methods are not part of these schedules.  The assumptions on the interpreter are
  those stated for `Threads.v`: a step of a thread is one access to an attribute or a list of the object.
* `SpecTexts.v`, `TextsExact.v`: the texts of proofs and time stamps, character by character, C248, C249.
* `SpecWatch.v`, `WatchProofs.v`, `WatchScene.v`, `WatchRoots.v`, `WatchRace.v`, `WatchExamples.v`: proofs made and checked on one MPT while other threads use it,
  C251 to C255.  `C255_alone` connects `Watch.v` with `Mpt.v`.  A proof that is being checked is taken not to change.
* `SpecSeveral.v`, `SeveralProofs.v`, `SeveralTurns.v`, `SeveralExamples.v`: MPT objects with a common storage used by several threads, C256, C257.
* `SpecOpening.v`, `OpeningProofs.v`, `OpeningSnap.v`, `OpeningExamples.v`: MPT objects opened on the roots of others during the run, C258 to C260.
* `SpecKeyTexts.v`, `KeyTexts.v`: the texts of key pairs, character by character, C261.
* `SpecCopying.v`, `CopyingProofs.v`, `CopyingMain.v`, `CopyingExamples.v`: copies of a trie made while other threads use it, C262 to C265.
* `SpecETally.v`, `ETallyProofs.v`: how often keys are put and deleted by threads, C266.
* `SpecWalking.v`, `WalkingProofs.v`, `WalkingMain.v`, `WalkingExamples.v`: iterators over an EMPT while threads use it, C267 to C269.
* `SpecKeyEq.v`, `KeyEq.v`: equality of key pairs as a method and with nicknames that are not strings, C100.
* `SpecMixins.v`, `MixinsProofs.v`, `MixinsMain.v`, `MixinsTorn.v`, `MixinsEnds.v`, `MixinsAlone.v`, `MixinsExamples.v`: pop and setdefault of an EMPT while threads use it, C270 to C272.
* `SpecPopitem.v`, `PopitemProofs.v`, `PopitemEnds.v`, `PopitemExamples.v`: popitem of an EMPT while threads use it, C273 and C274.
* `SpecClearing.v`, `ClearingProofs.v`, `ClearingExamples.v`: clear of an EMPT while threads use it, C275 and C276. clear takes a KeyError that another thread's delete causes for the end, and returns with keys left.
* `TestVectors.v`, `TestVectors2.v`: the model evaluated on data of the repository's tests gives the root hashes recorded
  there (node and trie encodings, EMPT, SparseEMPT, MerkleTree). The further roots of `test_empt.py` (after updates and
  deletes in secure mode, SparseEMPT) were also compared and agree, they are left out because the checker needs minutes.
* `Spec.v` (also `SpecCodec.v`, `SpecProof.v`, `SpecEmpt.v`, `SpecMt.v`): the specification: histories, a dictionary as a function, prefix tests. It does not mention trie internals.
* `Properties*.v`: only theorem statements, closed by lemmas, each followed by `Print Assumptions` and with an
  `Example` with concrete values.

## Properties

| id | model and method |
|---|---|
| C01-C03 | refinement of get/update/delete/contains to `lookup`/`upd`/`del`, induction over the history; values non-empty unless in secure mode |
| C04 | false: witness with keys `dog`,`horse`, `get(b"d")`; `_refuted` theorem. The true part is C05 |
| C05 | refinement of `get` including its behaviour on exhausted paths |
| C06 | refinement of `_delete` with its three actions, plus failure frame |
| C07 | uniqueness of canonical trees |
| C08 | injectivity of node encoding, induction on trees, no-collision hypothesis on the encodings of both tries |
| C09 | corollary of C07 and of the empty case |
| C10 | monotonicity of the store under no collision |
| C11 | fault-list quantification; every failing run extends the store only |
| C12 | store invariant |
| C13 | simulation between secure and plain runs; hashed keys all have 32 bytes |
| C14 | false in plain mode: witness; true in secure mode, where no key is a prefix of another, so no value ends on a branch (`fitting`, `kept`); restriction to non-empty values is C01-C03 |
| C15 | lock-step induction of proof generation and verification |
| C16 | false for roots shorter than 32 bytes: witness and general negative statement |
| C17 | induction on the verifier's walk against the honest tree |
| C18 | false: witness; holds when no present key extends the target (part of C17 statement) |
| C19 | direct, from the final root comparison |
| C20 | false: three kinds of witnesses |
| C21 | lock-step induction under the stated side conditions |
| C22 | false: truncated proof witness |
| C23 | direct, for all proof objects |
| C24 | RLP round trip + content addressing invariant; equality of the dictionaries |
| C25 | false after the last delete: witness and general statement |
| C26 | decode re-keys by hash, so nodes agree with the honest tree along the walk |
| C27-C30 | codec proofs, for all inputs |
| C31 | codec proof with `big_endian_int` |
| C32 | false: boundary shift; true for equal keys or equal key lengths |
| C33 | refinement of EMPT to a dictionary with known, absent and unknown keys on top of C01-C06; histories with failures |
| C34 | content check by keccak(key+data) |
| C35, C36 | fault lists for both storages; C36 refuted by a witness |
| C37, C38 | induction over the data storage; C38 refuted for every non-empty trie storage |
| C39, C40 | equality of the wrapped trie; C40 refuted for every SparseEMPT |
| C41 | two objects over a shared heap cell; refuted by a witness |
| C42-C44 | induction on levels, odd-node promotion; C43 refuted |
| C45 | refuted (inner node / concatenation as target) |
| C46, C48 | induction with no-collision hypothesis |
| C47 | refuted by a witness (put after make_tree); holds after make_tree |
| C49, C50 | RLP with sedes; C50 refuted for every proof with a sibling |
| C54 | exact characterisation of `contains` (C02 is refuted) |
| C55 | a put succeeds when no storage access fails and the stack suffices |
| C56 | soundness of inclusion proofs for keys of one length |
| C57 | refuted: the secure flag of a decoded trie is not covered by the root |
| C58 | refuted: `int(bytes, 16)` raises on almost every digest |
| C59 | equality of states |
| C60, C61 | corollaries of C07, C08, C15, C56 through the EMPT invariant |
| C62 | induction over the keys for `clear`; the others from C33 |
| C63-C66 | refuted; C66 for every EMPT |
| C67 | no-collision hypothesis on the two hashed strings |
| C68 | completeness with the stored digest as target |
| C69 | induction along the proof against `tree_of`; the corrected C46 |
| C70 | levels built bottom-up equal the recursive split; histories |
| C71, C75, C78-C81, C83 | refuted by witnesses, mostly for every tree |
| C72 | injectivity of `thash` with a length argument separating leaves from nodes |
| C73 | sides of a path determine the index, induction on `tree_of` |
| C74 | equivalence, all proof objects |
| C76 | injectivity of `int(hex, 16)` on strings of one length |
| C77, C82 | induction over histories |
| C84-C87 | parser run on printed text, induction on JSON values; UTF-8 codec inverse both ways |
| C88 | refuted for every tree with two values, from the shape of the path |
| C89 | unique decoding of `repr` output, induction on the tuple |
| C90, C92 | refuted for every object; C91 by evaluation |
| C51-C53 | oracle equations, JSON round trip, byte layout; C52 refuted for every encryption key pair |
| C93, C94, C98, C99, C101, C105 | refuted for all inputs; C93 and C94 by attackers' programs that do not use the sender's key |
| C95-C97, C100, C102-C104, C106 | oracle equations, case analysis |
| C107-C112 | the end of a walk against the set of present keys; C108 refuted for every non-empty trie |
| C113-C116 | a SparseEMPT history is an MPT history of encoded references; C114 refuted by a witness with `dog`, `horse` |
| C117 | induction over the verifier's walk with its shrinking storage |
| C118, C119, C121 | parser against the grammar in both directions, printed text against the grammar |
| C120 | byte layout, oracle calls, equivalence |
| C122 | refuted; equivalence on the surrogates of the nickname |
| C124 | refuted for every JSON value, on an explicit key string |
| C123 | refuted for every consumed path; exact result for every integer |
| C125, C126, C128-C130, C132 | coders against the inductive relations, in both directions |
| C127, C131 | refuted for every leaf and extension: the flag byte has ignored bits; simulation of two verifications |
| C133, C134 | refuted for every branch without value, for every node |
| C135 | the Python-level model against the one of the tries, then against nibbles |
| C136-C138 | refuted for every path; exact results |
| C139, C140 | literal grammar, injectivity of the printed text |
| C141, C142 | refuted for every boundary, every name that starts with `.//`; exact otherwise |
| C143 | case analysis of the decoder over the JSON grammar |
| C144 | digits of fixed width keep the order; the missing fraction is a shorter text |
| C145-C149 | uniqueness of the Yellow Paper tree, refinement; nodes of proofs by induction on the walk |
| C150, C151 | additive cost of the store monad; deletion by what the recursive call reports |
| C152-C156 | simulation between storages; union of two consistent storages; the walk of a key |
| C157 | the loop of MerkleTools against the path in the tree, by induction on levels |
| C158, C159 | induction on the stack depth and on the relation; dictionary of the proof's texts |
| C160-C167 | the object refines the relation; total and deterministic; entries of the levels as roots of slices of the leaves |
| C168-C169 | a grammar of the texts of `int(b, 16)`; exact `hash` and `==` of tries |
| C170-C173 | relations for the exceptions of reading nodes and for whole verifications; equivalences by induction on the recursion limit |
| C174-C176 | a relation per call between what the two storages hold before and after; invariant by induction on the calls; determinism of the relation where nothing faults |
| C177 | case analysis per sedes on the item that the text stands for (C125) |
| C178 | induction on the limit; writing happens only after the walk |
| C179-C180 | unfolding of the loop; the relation of C174 for references; witness under Keccak-256 |
| C181 | one invariant (reachable, dictionary, used); each call by the exact theorems C107-C112, C145-C148, C171-C172, C178; the walk of an inclusion proof is a prefix of that of an exclusion proof |
| C182, C183 | the tree invariant without the condition that a branch has two children or a value; update by the relation `takes`, proved for one node and lifted through prefixes; delete may then empty a branch; C183 is refuted by a witness |
| C184 | the walks of C15 and C17 on the trees of C182; making a proof of exclusion takes the way of contains |
| C185, C186 | cases on the call; keys and nicknames read off the list of calls |
| C187 | C51, C96 with C185 for the calls in between |
| C188, C189 (refuted) | a nickname that JSON cannot write |
| C190 (refuted), C191-C193 | fixed-width texts; bits of bytes; cases on the arguments |
| C194, C195, C197 | the object against the list of its values and the stage of its tree, call by call; levels as texts |
| C196, C198 (refuted) | cases on the arguments; what is read as bytes and what raises |
| C199 | reading keys one by one through the EMPT invariant |
| C200 (refuted) | an EMPT without nodes stays without nodes |
| C201, C202 | each object simulated by one with its own storage that was reached by its calls alone; nodes of others are only added |
| C203, C205 | C201 and C204 for the calls of the script |
| C204 | exactness of the proofs of a trie (C111, C112) with references as values |
| C206 (refuted) | C204: the key leaves the extension at the root |
| C207 | C51 for the calls of the scripts |
| C208 (refuted) | C43 for the tree of the script |
| C209 | each update of the loop is a call on a reachable EMPT; a failed one changes nothing (C11) |
| C210 (refuted) | two keys, the second read fails |
| C211 | the copy's nodes that are reached are the owner's; C174 for the owner |
| C212 | each call on a part of the nodes is the owner's or raises KeyError |
| C213 | C211 for the nodes of a proof; a proof has the nodes on the path |
| C214 | each turn is a session (C174) between two questions to the iterator |
| C215 | a set key keeps its place, the other values stay |
| C216 (refuted) | after the first turn there is one key less |
| C217 | each operation is a list of questions that C174 answers; after quiet calls references and data have the same keys |
| C218 (refuted) | the longer key of either EMPT is a false positive of `in` of the other one |
| C219 | one invariant for each place at which a call can be interrupted; nodes are only ever added to the storage, so that a walk that has its root cannot be disturbed |
| C220 | the invariant keeps the objects seen at the moments of the call |
| C221 | with one writer the root a write has taken is the root it replaces |
| C222, C223 | by evaluation of programs; a bound on the steps of each walk |
| C224 to C226 (refuted) | schedules, for every state of the trie |
| C227, C229 | reading the entries one after another is the relation "first entry that cannot be used"; the rest by cases |
| C228 (refuted) | three short messages, for every key pair |
| C230 | every schedule is one of the trie; the data a get has read is kept in the invariant with the moment it was read |
| C231 | induction on the schedule: what is left to do of the one write is the call alone |
| C232 | the data cannot change, and the trie has the reference at all moments since the update (C221) |
| C233, C234 (refuted) | schedules, for every state |
| C235, C236 | bounds on the steps, by evaluation of programs |
| C237, C238 | evaluation; the texts by the exact theorems for RLP (`SpecRlp.v`) |
| C239, C240 | induction on the schedule; a short call is one step |
| C241 | as C231 |
| C242 | invariant of the one call that makes the tree: the levels so far are those over a snapshot of the leaves |
| C243 to C247 (refuted) | schedules; for C246 one for every number of steps; `C247_mended` by C239 and C240 |
| C248, C249 | the text is one of the specification, and there is one |
| C250 | a measure of the steps that are left, under the invariant of C242 |
| C251, C252 | each read answers from a storage that only grows; the nodes under one root stay readable; a check uses the storage made from the proof |
| C253, C254 (refuted) | one schedule for every trie and every change |
| C255 | the calls assign nothing; a bound on their reads |
| C256 | the calls on one object go step by step as with a storage of its own: what is read is in both, or is the hash of the empty trie and in neither |
| C257 | C256, and the rest of a call that runs by itself is the call of `Mpt.v` |
| C258 | as C256; when an object is opened its life is a copy of that of the other one, or the empty life when that one has root None |
| C259 | C258; in the life of the object only reads follow the opening, so nothing changes, and a read answers alike on every dict with the nodes of its trie |
| C260 | a read answers alike on every dict with the nodes of its trie, and the common dict only grows |
| C261 | the names of the classes differ before the first nickname |
| C262 | the dict only grows, so an iteration that ends saw the dict of one moment; a read on fewer nodes answers alike or misses one |
| C263 | refuted by a write between the loop and the reading of the root |
| C264 | refuted by a write during the loop |
| C265 | a copy writes nothing; each step of it goes on in the dict of bounded size |
| C266 | induction on the schedule with, for each call, whether it has changed the data storage |
| C267 | induction on the schedule; an iterator that saw no change is at the key after those it gave |
| C268 | refuted by the number of keys |
| C269 | an iterator writes nothing; it gives at most as many keys as there were at its start |
| C270 | induction on the schedule with what each pop or setdefault has got so far; each pop that returned has a delete of its own, then C266 |
| C271 | refuted by an update between the get and the delete of pop |
| C272 | refuted by a second setdefault between the get and the update of the first |
| C273 | induction on the schedule; each popitem that returned has a pop of its own, then C270 |
| C274 | refuted by the number of keys |
| C275 | the steps of clear are steps of popitem, then C273; induction on the keys for the call alone |
| C276 | refuted by a delete of the first key |

Statements that are false of the code get a theorem ending in `_refuted` with a concrete witness; the strongest true
variant is a separate property or a `_partial`/`_when_...` theorem.
