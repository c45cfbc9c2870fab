{"id": "C01", "title": "MPT.get returns the last value written", "statement": "Start from an empty MPT and run any sequence of update(k,v) (v non-empty) and delete(k) calls. If the last successful call on key k was update(k,v), then get(k) returns exactly v.", "quantifier": "every finite history of update/delete calls, every key and value byte string (of any length, including keys that are prefixes of other keys), secure or not, every fixed 32-byte hash function without a collision among the node encodings written in that history", "why_tests_cant": "The trie shape depends on the whole history (leaf/extension/branch splits and merges, inline versus hashed references); a test visits a handful of shapes.", "anchors": ["src/pymt/mpt.py:MPT.get", "src/pymt/mpt.py:MPT.update", "src/pymt/mpt.py:MPT.delete", "src/pymt/mpt.py:MPT._get", "src/pymt/mpt.py:MPT._update", "src/pymt/mpt.py:MPT._delete"]}
{"id": "C02", "title": "MPT.contains is exact membership", "statement": "After any history of update (non-empty values) and delete calls, contains(k) returns True if and only if k was written and not deleted since. It never raises.", "quantifier": "every history, every queried key (present, absent, prefix of a present key, extension of a present key)", "why_tests_cant": "Absent keys are infinitely many and stop the walk at every possible node kind.", "anchors": ["src/pymt/mpt.py:MPT.contains", "src/pymt/mpt.py:MPT._contains"]}
{"id": "C03", "title": "MPT writes do not disturb other keys", "statement": "update(k,v) and delete(k) change what get and contains answer for k only: every other key present before keeps its value and contains stays True for it; every other absent key stays absent (get raises unless a present key or k properly extends it, contains is False unless a present key or k is a proper prefix of it).", "quantifier": "every reachable trie, every written key k, every other key", "why_tests_cant": "Needs all pairs of keys over all reachable trie shapes.", "anchors": ["src/pymt/mpt.py:MPT._update", "src/pymt/mpt.py:MPT._create_branch_node", "src/pymt/mpt.py:MPT._create_branch_extension", "src/pymt/mpt.py:MPT._delete", "src/pymt/mpt.py:MPT._build_new_node_from_last_branch"]}
{"id": "C04", "title": "MPT.get on an absent key never returns a value", "statement": "get(k) for a key that is not in the trie raises; it never returns bytes, and in particular never returns the value of another key.", "quantifier": "every reachable trie and every absent key", "why_tests_cant": "The failing keys are those that stop exactly on a node boundary; random test keys do not.", "anchors": ["src/pymt/mpt.py:MPT.get", "src/pymt/mpt.py:MPT._get"]}
{"id": "C05", "title": "MPT.get on an absent key raises when no present key extends it", "statement": "If k is absent and is not a proper prefix of any present key (always so in secure mode, or when all keys have one length), get(k) raises an exception.", "quantifier": "every reachable trie, every absent key that no present key extends", "why_tests_cant": "Quantifies over all tries and all absent keys.", "anchors": ["src/pymt/mpt.py:MPT.get", "src/pymt/mpt.py:MPT._get"]}
{"id": "C06", "title": "MPT.delete removes exactly the present keys and rejects absent ones", "statement": "delete(k) on a present key returns normally and afterwards k is absent and the trie is the trie of the remaining mapping; delete(k) on an absent key raises and leaves root(), root_hash(), every answer of the trie and the storage unchanged.", "quantifier": "every reachable trie, every key", "why_tests_cant": "Deletion collapses branches in many shape-dependent ways; a missed merge shows only for particular triples of keys.", "anchors": ["src/pymt/mpt.py:MPT.delete", "src/pymt/mpt.py:MPT._delete"]}
{"id": "C07", "title": "The MPT root hash depends only on the contents", "statement": "Two histories of update/delete that end with the same key/value mapping end with the same root_hash(), whatever the order, overwrites and deletions in between, and with the same root() when the mapping is not empty.", "quantifier": "every pair of histories with equal final mapping", "why_tests_cant": "The number of orders and detours is unbounded; the test vectors try a few.", "anchors": ["src/pymt/mpt.py:MPT.root_hash", "src/pymt/mpt.py:MPT._update", "src/pymt/mpt.py:MPT._delete"]}
{"id": "C08", "title": "The MPT root hash commits to the contents", "statement": "If two reachable tries have equal root hashes then they hold the same mapping, unless two different node encodings of these two tries hash to the same digest.", "quantifier": "every pair of reachable tries", "why_tests_cant": "Injectivity over an infinite domain.", "anchors": ["src/pymt/mpt.py:MPT.root_hash", "src/pymt/utils/node.py:Node.into_reference", "src/pymt/utils/node.py:Leaf.encode", "src/pymt/utils/node.py:Extension.encode", "src/pymt/utils/node.py:Branch.encode"]}
{"id": "C09", "title": "Deleting what was added restores the root; deleting everything gives the empty hash", "statement": "Adding any sequence of new keys to a non-empty trie and then deleting them, in any order, gives back the original root(); and whenever a history leaves no key, root_hash() is the empty-trie hash.", "quantifier": "every history and every set of added keys", "why_tests_cant": "Any number of keys in any order.", "anchors": ["src/pymt/mpt.py:MPT.delete", "src/pymt/mpt.py:MPT.root_hash"]}
{"id": "C10", "title": "Old roots stay readable", "statement": "If root() returned r at some point, then after any further updates and deletes on the same storage, MPT(storage, r) still answers get and contains exactly as the trie did at that point.", "quantifier": "every history, every later history, every key", "why_tests_cant": "Any later write might overwrite or drop a shared node.", "anchors": ["src/pymt/mpt.py:MPT.__init__", "src/pymt/mpt.py:MPT._store_node"]}
{"id": "C11", "title": "A failed update or delete changes nothing", "statement": "If update or delete raises - because the key is absent, the recursion limit is hit, or the storage raises on any of its writes - then root() is unchanged and every get, contains and proof gives the same answer as before the call.", "quantifier": "every reachable trie, every call, every point at which the storage may fail, every recursion limit", "why_tests_cant": "Every crash point of every operation on every trie.", "anchors": ["src/pymt/mpt.py:MPT.update", "src/pymt/mpt.py:MPT.delete", "src/pymt/mpt.py:MPT._store_node"]}
{"id": "C12", "title": "The node storage is append-only and content-addressed", "statement": "Every entry that update or delete writes into the storage is keyed by the keccak hash of its value, the value is at least 32 bytes long, and no entry ever disappears or changes afterwards.", "quantifier": "every history, including failed calls", "why_tests_cant": "An invariant over all histories.", "anchors": ["src/pymt/mpt.py:MPT._store_node", "src/pymt/utils/node.py:Node.into_reference"]}
{"id": "C13", "title": "Secure mode is the plain trie on hashed keys", "statement": "A secure MPT holds the same nodes and root as a plain MPT driven with keccak(key) in place of key; get on an absent key always raises in secure mode.", "quantifier": "every history, every key", "why_tests_cant": "All histories; and in secure mode no test can choose colliding or prefix-related keys.", "anchors": ["src/pymt/mpt.py:MPT.get", "src/pymt/mpt.py:MPT.update", "src/pymt/mpt.py:MPT.delete", "src/pymt/mpt.py:MPT.contains"]}
{"id": "C14", "title": "Empty values are stored like any other value", "statement": "After update(k, b''), contains(k) is True and stays True until k is deleted, whatever other keys are written.", "quantifier": "every history with empty values", "why_tests_cant": "Fails only when a key with an empty value later ends up on a branch node.", "anchors": ["src/pymt/mpt.py:MPT.update", "src/pymt/mpt.py:MPT.contains", "src/pymt/mpt.py:MPT._create_branch_node"]}
{"id": "C15", "title": "Inclusion proofs of present keys verify", "statement": "If k is present and the encoding of the root node is at least 32 bytes long, get_proof_of_inclusion(k) returns a proof that verify_proof_of_inclusion accepts, on the trie itself and on any trie object with the same root (RootEMPT).", "quantifier": "every reachable trie with a hashed root, every present key", "why_tests_cant": "Completeness over all tries and keys.", "anchors": ["src/pymt/mpt.py:MPT.get_proof_of_inclusion", "src/pymt/mpt.py:MPT.verify_proof_of_inclusion"]}
{"id": "C16", "title": "Inclusion proofs of present keys verify for small tries too", "statement": "For every non-empty trie and every present key the generated inclusion proof verifies.", "quantifier": "every reachable trie, every present key", "why_tests_cant": "Depends on the byte length of the root encoding.", "anchors": ["src/pymt/mpt.py:MPT.get_proof_of_inclusion", "src/pymt/mpt.py:MPT.verify_proof_of_inclusion"]}
{"id": "C17", "title": "An accepted inclusion proof means the key, or an extension of it, is present", "statement": "If verify_proof_of_inclusion returns True on any proof object whatsoever (honest or forged), then the trie with that root contains the target key or a key that extends it, unless a proof node and a trie node collide under keccak.", "quantifier": "every trusted root of a reachable trie, every proof object (arbitrary bytes)", "why_tests_cant": "Adversarial inputs: all possible proofs.", "anchors": ["src/pymt/mpt.py:MPT.verify_proof_of_inclusion", "src/pymt/mpt.py:MPT._verify_proof_of_inclusion"]}
{"id": "C18", "title": "An accepted inclusion proof means the key is present", "statement": "If verify_proof_of_inclusion returns True then the target key itself is in the trie.", "quantifier": "every reachable trie, every proof object", "why_tests_cant": "Counterexamples are keys that stop on a node boundary.", "anchors": ["src/pymt/mpt.py:MPT._verify_proof_of_inclusion"]}
{"id": "C19", "title": "Stale inclusion proofs are rejected", "statement": "A proof taken at one root never verifies against a trie whose root hash is different.", "quantifier": "every pair of roots, every proof object", "why_tests_cant": "All proof objects and all later states.", "anchors": ["src/pymt/mpt.py:MPT.verify_proof_of_inclusion"]}
{"id": "C20", "title": "Exclusion proofs of absent keys verify", "statement": "For every non-empty trie and every absent key, get_proof_of_exclusion returns a proof that verify_proof_of_exclusion accepts.", "quantifier": "every reachable trie, every absent key", "why_tests_cant": "Fails only for absent keys that diverge inside an extension node, or for a coincidence between a leaf path and the key.", "anchors": ["src/pymt/mpt.py:MPT.get_proof_of_exclusion", "src/pymt/mpt.py:MPT.verify_proof_of_exclusion"]}
{"id": "C21", "title": "Exclusion proofs verify when the walk does not end inside a root or inline extension", "statement": "When every node of the trie is stored by hash (always so for EMPT), all keys have the same length as the absent key, and the root is not an extension that diverges from it, the exclusion proof produced for the absent key is accepted.", "quantifier": "every such trie, every absent key", "why_tests_cant": "All tries and all absent keys.", "anchors": ["src/pymt/mpt.py:MPT.get_proof_of_exclusion", "src/pymt/mpt.py:MPT.verify_proof_of_exclusion"]}
{"id": "C22", "title": "An accepted exclusion proof means the key is absent", "statement": "If verify_proof_of_exclusion returns True then the target key is not in the trie with that root.", "quantifier": "every reachable trie, every proof object", "why_tests_cant": "Adversarial inputs: all possible proofs.", "anchors": ["src/pymt/mpt.py:MPT.verify_proof_of_exclusion", "src/pymt/mpt.py:MPT._verify_proof_of_exclusion"]}
{"id": "C23", "title": "Proof types are never confused", "statement": "verify_proof_of_inclusion raises TypeError on every proof that is not of type MPT-POI, verify_proof_of_exclusion on every proof that is not MPT-POE, whatever else the proof and the trie contain.", "quantifier": "every trie, every proof object", "why_tests_cant": "All proof objects.", "anchors": ["src/pymt/mpt.py:MPT.verify_proof_of_inclusion", "src/pymt/mpt.py:MPT.verify_proof_of_exclusion", "src/pymt/proof.py:Proof"]}
{"id": "C24", "title": "MPT.decode(MPT.encode(t)) is the same trie", "statement": "For every reachable trie that has a root, encoding and decoding gives a trie with the same root, secure flag and storage contents, so every get, contains, update, delete and proof call gives the same result on the copy.", "quantifier": "every reachable trie", "why_tests_cant": "All tries.", "anchors": ["src/pymt/mpt.py:MPT.encode", "src/pymt/mpt.py:MPT.decode"]}
{"id": "C25", "title": "Every reachable trie can be encoded", "statement": "MPT.encode never raises on a reachable trie.", "quantifier": "every history", "why_tests_cant": "Fails only after the last key has been deleted.", "anchors": ["src/pymt/mpt.py:MPT.encode", "src/pymt/mpt.py:MPT.delete"]}
{"id": "C26", "title": "A serialized trie from an untrusted source cannot forge reads", "statement": "Decode any byte string whatsoever with MPT.decode; if the resulting root() and secure flag equal those of a trie T, then any value get(k) returns is the value T holds for k, for every k in secure mode and for every k that no present key properly extends otherwise, unless a supplied node and a node of T collide under keccak.", "quantifier": "every byte string, every trie T, every key", "why_tests_cant": "Adversarial inputs.", "anchors": ["src/pymt/mpt.py:MPT.decode", "src/pymt/mpt.py:MPT._get_node"]}
{"id": "C27", "title": "Node codec round-trips and references are faithful", "statement": "For every leaf, extension and branch the trie can build, Node.decode(node.encode()) is the same node (same path nibbles, same data, same references), and two different nodes never have the same encoding.", "quantifier": "every node", "why_tests_cant": "All paths, values and reference mixes; lengths around 55/56 bytes and 31/32 bytes.", "anchors": ["src/pymt/utils/node.py:Node.decode", "src/pymt/utils/node.py:Node.into_reference", "src/pymt/utils/node.py:_prepare_reference_for_usage", "src/pymt/utils/node.py:_prepare_reference_for_encoding"]}
{"id": "C28", "title": "NibblePath behaves as the sequence of nibbles of its bytes after the offset", "statement": "len, at, ==, starts_with, consume, common_prefix and combine agree with length, indexing, equality, prefix test, drop, longest common prefix and concatenation on the nibble sequence.", "quantifier": "every byte string, every offset within it, every pair of paths", "why_tests_cant": "Odd/even parity of lengths and offsets combine; all lengths.", "anchors": ["src/pymt/utils/nibble_path.py:NibblePath"]}
{"id": "C29", "title": "Hex-prefix path encoding round-trips", "statement": "decode_with_type(p.encode(is_leaf)) returns a path equal to p and the same is_leaf; the encoding is therefore injective on (nibbles, is_leaf).", "quantifier": "every path, both node types", "why_tests_cant": "All lengths and parities.", "anchors": ["src/pymt/utils/nibble_path.py:NibblePath.encode", "src/pymt/utils/nibble_path.py:NibblePath.decode_with_type"]}
{"id": "C30", "title": "RLP coding used by the library is lossless and canonical", "statement": "Decoding an encoding gives back the item, and any byte string that decodes at all is the encoding of the decoded item, so no two byte strings decode to the same item.", "quantifier": "every nested byte-string/list item shorter than 2^64 bytes; every byte string", "why_tests_cant": "All nestings and lengths.", "anchors": ["src/pymt/utils/node.py:Node.decode", "src/pymt/mpt.py:MPT.encode", "src/pymt/mpt.py:MPT.decode", "src/pymt/proof.py:Proof.encode_rlp"]}
{"id": "C31", "title": "DataReference codec round-trips and rejects tampering", "statement": "DataReference.decode(r.encode()) equals r with the same key and data; decode of any byte string either raises or returns a reference whose stored hash is keccak(key+data).", "quantifier": "every key, data, and every byte string", "why_tests_cant": "All byte strings.", "anchors": ["src/pymt/empt.py:DataReference"]}
{"id": "C32", "title": "DataReference equality means same key and same data", "statement": "Two references compare equal only if their keys and data are equal (up to keccak collisions).", "quantifier": "every pair of references", "why_tests_cant": "The counterexamples shift bytes between key and data.", "anchors": ["src/pymt/empt.py:DataReference.__eq__", "src/pymt/empt.py:DataReference.__hash__"]}
{"id": "C33", "title": "EMPT is a dictionary", "statement": "After any history of update(k,v) and delete(k) on an EMPT with its own storages, some of which may have raised because a storage failed: get(k) returns the last value written for a key whose last call returned and contains(k) is True; get(k) raises KeyError for an absent k, and contains(k) is False unless (in plain mode) some key that may be present is a proper prefix of k; if no storage failed, len and iteration give exactly the present keys, each once; delete of an absent key raises (KeyNotFoundError when contains(k) is False) and changes nothing; update and delete of a present key succeed when no storage fails.", "quantifier": "every history, every key and value (empty values included), secure or not", "why_tests_cant": "All histories.", "anchors": ["src/pymt/empt.py:EMPT.get", "src/pymt/empt.py:EMPT.update", "src/pymt/empt.py:EMPT.delete", "src/pymt/empt.py:EMPT.contains", "src/pymt/empt.py:EMPT.__len__", "src/pymt/empt.py:EMPT.__iter__"]}
{"id": "C34", "title": "EMPT.get detects tampered data", "statement": "If the data storage is modified behind the EMPT's back, get(k) raises rather than returning a value other than the one written through the EMPT, unless keccak(k+tampered) = keccak(k+original).", "quantifier": "every history, every modification of the data storage", "why_tests_cant": "All modifications.", "anchors": ["src/pymt/empt.py:EMPT.get"]}
{"id": "C35", "title": "EMPT never returns wrong data after a storage failure", "statement": "If a storage write fails at any point inside EMPT.update or EMPT.delete, later get(k) returns either the value last acknowledged or the value being written, or raises; other keys are unaffected.", "quantifier": "every reachable EMPT, every operation, every failure point", "why_tests_cant": "Every crash point.", "anchors": ["src/pymt/empt.py:EMPT.update", "src/pymt/empt.py:EMPT.delete"]}
{"id": "C36", "title": "EMPT.update and EMPT.delete are all-or-nothing", "statement": "If EMPT.update(k,v) or EMPT.delete(k) raises because a storage failed, the EMPT still answers as before the call.", "quantifier": "every failure point", "why_tests_cant": "Fails only when one of the two storages fails after the other one was written.", "anchors": ["src/pymt/empt.py:EMPT.update", "src/pymt/empt.py:EMPT.delete"]}
{"id": "C37", "title": "EMPT.build_trie builds the trie of the data storage", "statement": "On an EMPT whose trie is still empty, build_trie makes get(k) succeed for every key of the data storage, and the resulting root is the one that updating the keys one by one would give.", "quantifier": "every data storage content", "why_tests_cant": "All contents.", "anchors": ["src/pymt/empt.py:EMPT.build_trie"]}
{"id": "C38", "title": "EMPT.build_trie can rebuild an existing trie", "statement": "If the trie is already built, build_trie rebuilds it from the data storage.", "quantifier": "every reachable EMPT backed by a dict", "why_tests_cant": "Depends on dict iteration semantics for every non-empty storage.", "anchors": ["src/pymt/empt.py:EMPT.build_trie"]}
{"id": "C39", "title": "Root and sparse views agree with the EMPT", "statement": "get_root_trie and get_sparse_trie have the same root hash and secure flag as the EMPT and give the same verification result on every proof; the sparse copy answers contains like the EMPT, and later writes to either do not affect the other.", "quantifier": "every reachable EMPT, every proof, every later history on either side", "why_tests_cant": "All proofs and histories.", "anchors": ["src/pymt/empt.py:EMPT.get_root_trie", "src/pymt/empt.py:EMPT.get_sparse_trie", "src/pymt/empt.py:RootEMPT", "src/pymt/empt.py:SparseEMPT"]}
{"id": "C40", "title": "SparseEMPT.get_root_trie works", "statement": "SparseEMPT.get_root_trie returns a RootEMPT with the same root hash.", "quantifier": "every SparseEMPT", "why_tests_cant": "Untested; a call with an unknown keyword.", "anchors": ["src/pymt/empt.py:SparseEMPT.get_root_trie", "src/pymt/empt.py:RootEMPT.__init__"]}
{"id": "C41", "title": "Two default-constructed EMPT objects are independent", "statement": "Writing through one EMPT() never changes what another EMPT() answers.", "quantifier": "every sequence of operations interleaved over two default-constructed objects", "why_tests_cant": "Interleavings of operations on two objects.", "anchors": ["src/pymt/empt.py:EMPT.__init__"]}
{"id": "C42", "title": "MerkleTree inclusion proofs verify (secure=False)", "statement": "After put of any non-empty list of values and make_tree, the proof of every value put verifies on the tree.", "quantifier": "every non-empty list of byte strings, every member, every hash function", "why_tests_cant": "All sizes: the odd-node promotion differs at each level for each size and index.", "anchors": ["src/pymt/mt.py:MerkleTree.get_proof_of_inclusion", "src/pymt/mt.py:MerkleTree.verify_proof_of_inclusion", "src/pymt/merkletools.py:MerkleTools.get_proof_of_inclusion", "src/pymt/merkletools.py:MerkleTools._calculate_next_level"]}
{"id": "C43", "title": "MerkleTree inclusion proofs verify in secure mode", "statement": "With secure=True (the default) the proof of every value put verifies on the tree.", "quantifier": "every non-empty list of byte strings, every member", "why_tests_cant": "All inputs.", "anchors": ["src/pymt/mt.py:MerkleTree.verify_proof_of_inclusion", "src/pymt/merkletools.py:MerkleTools.add_leaf"]}
{"id": "C44", "title": "MerkleTools proofs verify against the leaf hash", "statement": "With MerkleTools, in both modes, verify_proof_of_inclusion(get_proof_of_inclusion(v), stored leaf of v, root) is True for every value v added before make_tree.", "quantifier": "every non-empty list of byte strings, every member, both modes", "why_tests_cant": "All sizes and positions.", "anchors": ["src/pymt/merkletools.py:MerkleTools.get_proof_of_inclusion", "src/pymt/merkletools.py:MerkleTools.verify_proof_of_inclusion"]}
{"id": "C45", "title": "An accepted Merkle proof means the target is a leaf", "statement": "If verify_proof_of_inclusion returns True the target key was put in the tree.", "quantifier": "every tree, every proof object", "why_tests_cant": "Adversarial inputs.", "anchors": ["src/pymt/merkletools.py:MerkleTools.verify_proof_of_inclusion", "src/pymt/mt.py:MerkleTree.verify_proof_of_inclusion"]}
{"id": "C46", "title": "An accepted Merkle proof means the target is a node of the tree", "statement": "If leaves, target and siblings all have digest length and verify_proof_of_inclusion returns True, the target is a leaf or an inner node of the tree, unless the hash function collides on inputs that occur in the tree or the proof.", "quantifier": "every tree with digest-sized leaves, every proof with digest-sized siblings", "why_tests_cant": "Adversarial inputs.", "anchors": ["src/pymt/merkletools.py:MerkleTools.verify_proof_of_inclusion"]}
{"id": "C47", "title": "The Merkle root reflects all leaves put so far", "statement": "get_merkle_root always returns the root of the tree over all values put so far.", "quantifier": "every history of put, make_tree, get_merkle_root, reset_tree", "why_tests_cant": "Depends on the interleaving of put and make_tree.", "anchors": ["src/pymt/mt.py:MerkleTree.get_merkle_root", "src/pymt/merkletools.py:MerkleTools.add_leaf", "src/pymt/merkletools.py:MerkleTools.make_tree"]}
{"id": "C48", "title": "The Merkle root commits to the leaves", "statement": "Two trees over the same number of digest-length leaves with the same root have the same leaves in the same order, unless the hash function collides on inputs of the two trees.", "quantifier": "every pair of leaf lists of equal length", "why_tests_cant": "Injectivity over an infinite domain.", "anchors": ["src/pymt/merkletools.py:MerkleTools._calculate_next_level", "src/pymt/merkletools.py:MerkleTools.make_tree"]}
{"id": "C49", "title": "Proof RLP round-trips for flat proofs", "statement": "For an MT proof whose elements are byte strings, Proof.decode_rlp(p.encode_rlp()) has the same type, timestamp, key, root and elements.", "quantifier": "every such proof", "why_tests_cant": "All byte strings.", "anchors": ["src/pymt/proof.py:Proof.encode_rlp", "src/pymt/proof.py:Proof.decode_rlp"]}
{"id": "C50", "title": "Proof RLP round-trips for the proofs MerkleTree produces", "statement": "Proof.decode_rlp(p.encode_rlp()) gives back p for every p returned by MerkleTree.get_proof_of_inclusion.", "quantifier": "every tree, every member", "why_tests_cant": "All trees.", "anchors": ["src/pymt/proof.py:Proof.decode_rlp", "src/pymt/mt.py:MerkleTree.get_proof_of_inclusion"]}
{"id": "C51", "title": "Key pair encryption and signatures round-trip", "statement": "For any two RsaKeyPair objects a and b and any message m, b.decrypt(a.encrypt(m, b.public_key), a.public_key) = m, and a.signature_valid(m, a.sign(m)) is True, given correct RSA/AES primitives; decrypt raises if the ciphertext was not signed by the claimed sender.", "quantifier": "every key pair, message, session key, nonce", "why_tests_cant": "All messages and keys.", "anchors": ["src/pymt/keypairs.py:RsaKeyPair.encrypt", "src/pymt/keypairs.py:RsaKeyPair.decrypt", "src/pymt/keypairs.py:RsaKeyPair.sign", "src/pymt/keypairs.py:RsaKeyPair.signature_valid"]}
{"id": "C52", "title": "An encryption key pair can encrypt and decrypt", "statement": "RsaEncKeyPair.encrypt and decrypt work.", "quantifier": "every message and key", "why_tests_cant": "Holds or fails for all inputs alike.", "anchors": ["src/pymt/keypairs.py:RsaEncKeyPair"]}
{"id": "C53", "title": "Password encryption blob round-trips", "statement": "Utils.decrypt(Utils.encrypt(d, p), p) = d for every data and password, given a correct AES-EAX with 16-byte nonce and tag.", "quantifier": "every data, password, nonce", "why_tests_cant": "All lengths.", "anchors": ["src/pymt/utils/utils.py:Utils.encrypt", "src/pymt/utils/utils.py:Utils.decrypt"]}
{"id": "C54", "title": "What MPT.contains answers, exactly", "statement": "contains(k) never raises when there are enough stack frames. It is True for every present key. For an absent key it is True exactly when the trie is not secure and some present key p is a proper prefix of k, p is extended by another present key, and no present key continues p with the same half-byte as k. So it is exact membership in secure mode and whenever no present key is a proper prefix of k.", "quantifier": "every reachable trie, every key", "why_tests_cant": "the answer depends on the shape of the whole key set; tests only try a few keys", "anchors": ["src/pymt/mpt.py:MPT.contains", "src/pymt/mpt.py:MPT._contains"]}
{"id": "C55", "title": "MPT.update succeeds", "statement": "With a non-empty value, a storage that does not fail and enough stack frames, update(k,v) returns normally on every trie that a history can produce.", "quantifier": "every reachable trie, every key and value", "why_tests_cant": "an unhandled node shape would only show for particular key sets", "anchors": ["src/pymt/mpt.py:MPT.update", "src/pymt/mpt.py:MPT._update"]}
{"id": "C56", "title": "With fixed-length keys an accepted inclusion proof means the key is present", "statement": "If every present key has the same length as the target key (always so in secure mode), then verify_proof_of_inclusion returning True on any proof object for that target, honest or forged, means that the target key is in the trie with that root, unless a proof node and a trie node collide under keccak.", "quantifier": "every reachable trie, every proof object, every trie object with the same root", "why_tests_cant": "forged proofs are arbitrary byte strings; no finite set of tests covers them", "anchors": ["src/pymt/mpt.py:MPT.verify_proof_of_inclusion", "src/pymt/mpt.py:MPT._verify_proof_of_inclusion"]}
{"id": "C57", "title": "The root alone protects reads of a serialized trie", "statement": "Decode any byte string with MPT.decode; if the resulting root() equals the root() of a trie T, a value returned by get(k) is the value T holds for k, whatever the secure flag in the bytes says.", "quantifier": "every byte string, every trie T, every key", "why_tests_cant": "the bytes are chosen by an adversary", "anchors": ["src/pymt/mpt.py:MPT.encode", "src/pymt/mpt.py:MPT.decode"]}
{"id": "C58", "title": "Tries can be compared", "statement": "t1 == t2 returns True exactly when the two tries have the same root (so in particular t == t).", "quantifier": "every pair of reachable tries", "why_tests_cant": "whether the comparison even returns depends on the bytes of a digest", "anchors": ["src/pymt/mpt.py:MPT.__hash__", "src/pymt/mpt.py:MPT.__eq__"]}
{"id": "C59", "title": "Reopening a storage continues where the trie was", "statement": "MPT(storage, t.root(), t.secure) on the storage of a non-empty trie t answers every get, contains and proof call as t does, and every later sequence of update and delete calls, storage failures included, has the same results on both.", "quantifier": "every trie with a root, every later history", "why_tests_cant": "ranges over all later histories and failure points", "anchors": ["src/pymt/mpt.py:MPT.__init__"]}
{"id": "C60", "title": "The EMPT root depends on the content only and commits to it", "statement": "Two EMPTs of the same mode that hold the same keys and values have the same root_hash, whatever calls (including failed ones on keys that were settled later) led there; if two EMPTs have the same root_hash, they hold the same keys and values, up to hash collisions.", "quantifier": "every pair of histories", "why_tests_cant": "All pairs of histories.", "anchors": ["src/pymt/empt.py:EMPT.root_hash", "src/pymt/empt.py:EMPT.update", "src/pymt/empt.py:EMPT.delete"]}
{"id": "C61", "title": "Inclusion proofs of an EMPT verify against its root", "statement": "For a present key of an EMPT whose root() is a 32-byte hash, get_proof_of_inclusion returns a proof that the RootEMPT from get_root_trie accepts; a proof accepted by the RootEMPT, whoever made it, names a key that is not absent from the EMPT (in secure mode, or if all keys have one length), up to hash collisions.", "quantifier": "every history, every key, every proof object", "why_tests_cant": "All histories and all forged proofs.", "anchors": ["src/pymt/empt.py:EMPT.get_root_trie", "src/pymt/empt.py:EMPT.get_proof_of_inclusion", "src/pymt/empt.py:RootEMPT.verify_proof_of_inclusion"]}
{"id": "C62", "title": "The inherited dictionary methods of EMPT work", "statement": "On an EMPT without storage failures, pop, popitem, setdefault, items and clear do what they do on a dict with the same content; in particular clear leaves no keys and the root hash of the empty trie.", "quantifier": "every history, key, value and default", "why_tests_cant": "All histories; the methods are inherited and rely on which exceptions EMPT raises.", "anchors": ["src/pymt/empt.py:EMPT", "src/pymt/empt.py:EMPT.get", "src/pymt/empt.py:EMPT.delete", "src/pymt/empt.py:EMPT.__iter__"]}
{"id": "C63", "title": "EMPT.contains is False for absent keys and delete of an absent key raises KeyNotFoundError", "statement": "If k is absent then contains(k) is False and delete(k) raises KeyNotFoundError.", "quantifier": "every history without storage failures, every absent key, secure or not", "why_tests_cant": "Needs a present key that is a prefix of the absent one and a branch below it.", "anchors": ["src/pymt/empt.py:EMPT.contains", "src/pymt/empt.py:EMPT.delete"]}
{"id": "C64", "title": "build_trie accepts the values that update accepts", "statement": "build_trie succeeds on an EMPT with an empty trie and a data storage filled with values that update accepts.", "quantifier": "every data storage", "why_tests_cant": "Values of all kinds.", "anchors": ["src/pymt/empt.py:EMPT.build_trie"]}
{"id": "C65", "title": "SparseEMPT.update accepts objects with encode_rlp and decode_rlp", "statement": "SparseEMPT.update(k, v) succeeds for an object v that has encode_rlp and decode_rlp methods.", "quantifier": "every such object", "why_tests_cant": "Values of all kinds.", "anchors": ["src/pymt/empt.py:SparseEMPT.update"]}
{"id": "C66", "title": "A sparse trie does not hold the data", "statement": "The data of the EMPT cannot be retrieved from the SparseEMPT that get_sparse_trie returns.", "quantifier": "every EMPT, every key", "why_tests_cant": "Confidentiality is about what can be computed from the object.", "anchors": ["src/pymt/empt.py:SparseEMPT", "src/pymt/empt.py:DataReference.encode", "src/pymt/empt.py:EMPT.get_sparse_trie"]}
{"id": "C67", "title": "References with keys of one length compare equal only if equal", "statement": "Two references whose keys have the same length compare equal only if their keys and their data are equal, up to a hash collision.", "quantifier": "every pair of references with keys of one length", "why_tests_cant": "All pairs.", "anchors": ["src/pymt/empt.py:DataReference.__eq__"]}
{"id": "C68", "title": "A secure MerkleTree proof verifies for the digest of the value", "statement": "On a built MerkleTree every value put has a proof of inclusion, and in either mode that proof verifies once its target is what the tree stored for the value (the value itself, or its digest with secure=True).", "quantifier": "every history ending in a build, both modes, every value put, every hash function", "why_tests_cant": "All sizes and positions.", "anchors": ["src/pymt/mt.py:MerkleTree.get_proof_of_inclusion", "src/pymt/mt.py:MerkleTree.verify_proof_of_inclusion"]}
{"id": "C69", "title": "What an accepted MerkleTree proof establishes", "statement": "If a built MerkleTree accepts a proof whose target has the length of a digest (with secure=False the values put have that length as well), then the target is a node (leaf or inner node) of the tree over the values put, or one of the leaves is itself the digest of a string the proof hashes; with secure=True such a string was put. Up to a hash collision.", "quantifier": "every built tree, every proof object with a target of digest length", "why_tests_cant": "Quantifies over forged proofs of every shape.", "anchors": ["src/pymt/mt.py:MerkleTree.verify_proof_of_inclusion", "src/pymt/merkletools.py:MerkleTools.verify_proof_of_inclusion"]}
{"id": "C70", "title": "The root is the Merkle tree root of all values in order", "statement": "After a build the root is the hash of the binary tree over all values put, split at the largest power of two below their number (an RFC 6962 tree without domain separation). It stays that root until the tree is built again or reset; before any build it is computed on demand.", "quantifier": "every history of calls", "why_tests_cant": "All sizes: odd-node promotion agrees with the recursive split only by an induction.", "anchors": ["src/pymt/merkletools.py:MerkleTools.make_tree", "src/pymt/merkletools.py:MerkleTools.get_merkle_root", "src/pymt/mt.py:MerkleTree.get_merkle_root"]}
{"id": "C71", "title": "The root commits to the number of values", "statement": "Two built MerkleTrees with different numbers of values have different roots.", "quantifier": "every pair of built trees", "why_tests_cant": "Needs a crafted pair.", "anchors": ["src/pymt/merkletools.py:MerkleTools.make_tree"]}
{"id": "C72", "title": "A secure root commits to the whole list of values", "statement": "Two trees with secure=True in which no value is as long as two digests have the same root only if the same values were put in the same order, up to a hash collision.", "quantifier": "every pair of built secure trees, any number of values", "why_tests_cant": "Quantifies over all pairs of lists.", "anchors": ["src/pymt/merkletools.py:MerkleTools.make_tree", "src/pymt/merkletools.py:MerkleTools.add_leaf"]}
{"id": "C73", "title": "The sides of the siblings fix the position", "statement": "Two proofs of inclusion made by one built tree list the same sequence of left and right siblings exactly if they are for the same position (the first one that holds the value). A proof that the tree accepts, whoever made it, with the sequence of sides of the tree's own proof of a value and a target as long as the leaf of that value, has that leaf as target and the same siblings, up to a hash collision.", "quantifier": "every built tree, every pair of values put, every proof object", "why_tests_cant": "All sizes, pairs of positions and proofs.", "anchors": ["src/pymt/merkletools.py:MerkleTools.get_proof_of_inclusion"]}
{"id": "C74", "title": "Acceptance depends only on target, proof and current root", "statement": "A MerkleTree accepts a proof exactly if its elements are well formed, combining the target with them gives the root recorded in the proof, and that root is the current root of the tree; the type and the timestamp of the proof play no role.", "quantifier": "every tree state, every proof object", "why_tests_cant": "All proofs.", "anchors": ["src/pymt/mt.py:MerkleTree.verify_proof_of_inclusion"]}
{"id": "C75", "title": "MerkleTree equality means equal roots", "statement": "Two MerkleTrees compare equal exactly if their roots are equal.", "quantifier": "every pair of trees", "why_tests_cant": "The counterexamples are degenerate leaves.", "anchors": ["src/pymt/merkletools.py:MerkleTools.__eq__", "src/pymt/merkletools.py:MerkleTools.__hash__"]}
{"id": "C76", "title": "MerkleTree equality is exact for roots of one length", "statement": "Two built MerkleTrees whose roots have the same non-zero length compare equal exactly if the roots are equal.", "quantifier": "every pair of built trees", "why_tests_cant": "All pairs of roots.", "anchors": ["src/pymt/merkletools.py:MerkleTools.__eq__", "src/pymt/merkletools.py:MerkleTools.__hash__"]}
{"id": "C77", "title": "Leaves after every history", "statement": "After every history of calls the leaves are the values put since the last reset, in order (digests with secure=True); get counts negative indices from the end and raises IndexError outside the list.", "quantifier": "every history, every integer index", "why_tests_cant": "Unbounded histories and indices.", "anchors": ["src/pymt/mt.py:MerkleTree.get", "src/pymt/mt.py:MerkleTree.put", "src/pymt/merkletools.py:MerkleTools.get_leaf"]}
{"id": "C78", "title": "put_list is atomic", "statement": "If put_list raises, no value was added.", "quantifier": "every tree, every list", "why_tests_cant": "Needs a bad element in the middle of a list.", "anchors": ["src/pymt/mt.py:MerkleTree.put_list"]}
{"id": "C79", "title": "A built tree can prove every value put", "statement": "Whenever the tree reports ready, every value put has a proof of inclusion that verifies.", "quantifier": "every history", "why_tests_cant": "Depends on the order of calls.", "anchors": ["src/pymt/mt.py:MerkleTree.put", "src/pymt/mt.py:MerkleTree.get_proof_of_inclusion", "src/pymt/merkletools.py:MerkleTools.get_tree_ready_state"]}
{"id": "C80", "title": "Verification of a MerkleTree proof returns a bool", "statement": "verify_proof_of_inclusion returns True or False for every Proof object, it raises on none.", "quantifier": "every proof object", "why_tests_cant": "The set of malformed proofs is unbounded.", "anchors": ["src/pymt/mt.py:MerkleTree.verify_proof_of_inclusion"]}
{"id": "C81", "title": "A tree with values has a root", "statement": "get_merkle_root succeeds on every tree that holds at least one value.", "quantifier": "every history", "why_tests_cant": "Depends on the order of calls.", "anchors": ["src/pymt/mt.py:MerkleTree.get_merkle_root", "src/pymt/merkletools.py:MerkleTools.get_merkle_root"]}
{"id": "C82", "title": "Questions change nothing", "statement": "Queries (get, root, proofs, verification) never change the values; they change the state at most by building the tree. Asking a built tree for a proof of a value that was not put (with secure=True, whose digest is not that of a value put) raises ValueError.", "quantifier": "every tree state, every query", "why_tests_cant": "All states.", "anchors": ["src/pymt/mt.py:MerkleTree.get_proof_of_inclusion", "src/pymt/mt.py:MerkleTree.verify_proof_of_inclusion", "src/pymt/mt.py:MerkleTree.get_merkle_root"]}
{"id": "C83", "title": "The root commits to the values for a known number of values", "statement": "Two trees with secure=False, the same number of values and the same root hold the same values, up to a hash collision.", "quantifier": "every pair of trees, values of any length", "why_tests_cant": "Needs a crafted pair.", "anchors": ["src/pymt/merkletools.py:MerkleTools._calculate_next_level"]}
{"id": "C84", "title": "JSON round trip of Merkle tree proofs", "statement": "If encode_json of a proof of type MT-POI returns a text, decode_json of that text returns a proof with the same type, timestamp, key, root and elements.", "quantifier": "every proof object of type MT-POI", "why_tests_cant": "All contents, including quotes, control characters and characters outside the basic plane.", "anchors": ["src/pymt/proof.py:Proof.encode_json", "src/pymt/proof.py:Proof.decode_json"]}
{"id": "C85", "title": "What encode_json can encode", "statement": "encode_json of a proof of type MT-POI succeeds exactly if timestamp, key and root are valid UTF-8 and every element is a byte string that is valid UTF-8.", "quantifier": "every proof object of type MT-POI", "why_tests_cant": "All byte strings.", "anchors": ["src/pymt/proof.py:Proof.encode_json"]}
{"id": "C86", "title": "encode_json refuses trie proofs", "statement": "encode_json of a proof of type MPT-POI or MPT-POE never returns; it raises NotImplementedError if timestamp, key and root are valid UTF-8.", "quantifier": "every proof object of these types", "why_tests_cant": "All contents.", "anchors": ["src/pymt/proof.py:Proof.encode_json"]}
{"id": "C87", "title": "What decode_json accepts", "statement": "If decode_json of a text returns, the proof has type MT-POI, all fields are valid UTF-8 and the elements are byte strings; encode_json of it succeeds and decodes to the same proof.", "quantifier": "every text", "why_tests_cant": "Unbounded texts, including duplicate keys, escapes and other JSON values in the fields.", "anchors": ["src/pymt/proof.py:Proof.decode_json"]}
{"id": "C88", "title": "Proofs made by a MerkleTree can be encoded as JSON", "statement": "encode_json succeeds on every proof of inclusion that a built MerkleTree returns for text values.", "quantifier": "every history ending in a build, both modes, every value put", "why_tests_cant": "All sizes.", "anchors": ["src/pymt/proof.py:Proof.encode_json", "src/pymt/mt.py:MerkleTree.get_proof_of_inclusion"]}
{"id": "C89", "title": "Equality of proofs is exact", "statement": "Two proofs compare equal exactly if type, timestamp, key, root and elements agree, up to a hash collision.", "quantifier": "every pair of proof objects, every hash function with digests of one length", "why_tests_cant": "Needs that the hashed text determines the proof, for all contents with quotes and escapes.", "anchors": ["src/pymt/proof.py:Proof.__eq__", "src/pymt/proof.py:Proof.__hash__"]}
{"id": "C90", "title": "Proofs of one key from one state are equal", "statement": "Two proofs of inclusion of the same key, taken from the same trie or tree, compare equal.", "quantifier": "every tree or trie state, every key, every two clock readings", "why_tests_cant": "Tests rarely compare proofs made at different times.", "anchors": ["src/pymt/proof.py:Proof.__eq__", "src/pymt/proof.py:Proof.__init__"]}
{"id": "C91", "title": "Iterating over a proof gives its fields", "statement": "Iterating over a proof yields the pairs of name and value for proof_type, timestamp, target_key, root_hash, proof in this order, also when another iteration was left unfinished. next() without an earlier iter() raises AttributeError; after the five fields it raises StopIteration for ever.", "quantifier": "every proof object, every state of an earlier iteration", "why_tests_cant": "All cursor states.", "anchors": ["src/pymt/proof.py:Proof.__iter__", "src/pymt/proof.py:Proof.__next__"]}
{"id": "C92", "title": "Nested iteration over a proof", "statement": "Two nested loops over one proof see all 25 pairs of fields.", "quantifier": "every proof object", "why_tests_cant": "Needs two iterations in progress at once.", "anchors": ["src/pymt/proof.py:Proof.__iter__", "src/pymt/proof.py:Proof.__next__"]}
{"id": "C93", "title": "A decrypted message was meant for the receiver", "statement": "If c.decrypt(e, a.public_key) returns m, then a encrypted m for c (nobody but a can make such an e).", "quantifier": "every three key pairs, message and random choices", "why_tests_cant": "Needs a malicious receiver.", "anchors": ["src/pymt/keypairs.py:RsaKeyPair.encrypt", "src/pymt/keypairs.py:RsaKeyPair.decrypt"]}
{"id": "C94", "title": "A decrypted message was encrypted by the sender", "statement": "If b.decrypt(e, a.public_key) returns m, then m is a message that a encrypted; signatures that a made with sign() on other data are of no use for making e.", "quantifier": "every two key pairs, signed data and random choices", "why_tests_cant": "Needs a forged message.", "anchors": ["src/pymt/keypairs.py:RsaKeyPair.encrypt", "src/pymt/keypairs.py:RsaKeyPair.decrypt", "src/pymt/keypairs.py:RsaKeyPair.sign"]}
{"id": "C95", "title": "Restricted key pairs refuse what they are not for", "statement": "RsaAuthKeyPair.encrypt and decrypt and RsaEncKeyPair.sign and signature_valid raise NotImplementedError on all arguments.", "quantifier": "every key pair of these classes, all arguments", "why_tests_cant": "All inputs.", "anchors": ["src/pymt/keypairs.py:RsaAuthKeyPair", "src/pymt/keypairs.py:RsaEncKeyPair"]}
{"id": "C96", "title": "Key strings round-trip", "statement": "If to_key_string(p) returns s, from_key_string(s, p) returns a key pair with the same nickname and key; to_key_string succeeds if the key can be exported with p.", "quantifier": "every key pair with a private key and a nickname without surrogates, every passphrase and salt", "why_tests_cant": "All nicknames and keys.", "anchors": ["src/pymt/keypairs.py:RsaKeyPair.to_key_string", "src/pymt/keypairs.py:RsaKeyPair.from_key_string"]}
{"id": "C97", "title": "Key files round-trip and other files stay", "statement": "After to_key_file(f, p) from_key_file(f, p) returns the same nickname and key. Saving never changes another file, and changes nothing if exporting fails. Loading a missing file raises FileNotFoundError.", "quantifier": "every key pair, file system contents, crash point", "why_tests_cant": "All states and failures.", "anchors": ["src/pymt/keypairs.py:RsaKeyPair.to_key_file", "src/pymt/keypairs.py:RsaKeyPair.from_key_file"]}
{"id": "C98", "title": "A failing save keeps the old key file", "statement": "If to_key_file fails, the file that was there before can still be loaded.", "quantifier": "every key pair, file system contents, crash point", "why_tests_cant": "Needs a failing disk.", "anchors": ["src/pymt/keypairs.py:RsaKeyPair.to_key_file"]}
{"id": "C99", "title": "A key string with a wrong public key is refused", "statement": "from_key_string raises if the public key in the string does not belong to the private key.", "quantifier": "every key string", "why_tests_cant": "Needs a tampered string.", "anchors": ["src/pymt/keypairs.py:RsaKeyPair.from_key_string"]}
{"id": "C100", "title": "Equality of key pairs", "statement": "On key pairs with keys, a == b is True exactly if class, nickname and public key agree; it is symmetric and does not raise. Called as a method, the __eq__ of an RsaKeyPair also takes a key pair of a subclass with the same nickname and public key for equal. Key pairs loaded with nicknames of different JSON kinds (string, list, object, true, false, null) are not equal.", "quantifier": "every two key pairs of the three classes", "why_tests_cant": "All pairs of classes; Python asks the subclass first.", "anchors": ["src/pymt/keypairs.py:RsaKeyPair.__eq__"]}
{"id": "C101", "title": "Key pairs are hashable", "statement": "hash(a) returns a number.", "quantifier": "every key pair", "why_tests_cant": "Fails for all alike.", "anchors": ["src/pymt/keypairs.py:RsaKeyPair.__hash__"]}
{"id": "C102", "title": "signature_valid answers exactly", "statement": "With a public key that can be loaded signature_valid is True exactly if the signature verifies, False exactly if the verifier raises TypeError or ValueError (or a subclass); other exceptions of the verifier pass through. A public key that cannot be loaded raises the exception of the loader.", "quantifier": "every key pair, data, signature, public key", "why_tests_cant": "All byte strings.", "anchors": ["src/pymt/keypairs.py:RsaKeyPair.signature_valid"]}
{"id": "C103", "title": "Password decryption accepts only encryptions", "statement": "If Utils.decrypt(b, p) returns d, then b has at least 32 bytes and is the output of Utils.encrypt(d, p) for the nonce in its first 16 bytes; different passwords use different keys, up to a SHA-256 collision.", "quantifier": "every byte string, every password", "why_tests_cant": "All byte strings, including short ones.", "anchors": ["src/pymt/utils/utils.py:Utils.decrypt", "src/pymt/utils/utils.py:Utils.encrypt"]}
{"id": "C104", "title": "rsa_key_valid is exact", "statement": "rsa_key_valid is True exactly if the key loads and is of the kind asked for. If loading raises ValueError it is False, or KeyError is raised with raise_exeptions; other exceptions pass through.", "quantifier": "every byte string, both kinds, both modes", "why_tests_cant": "All byte strings.", "anchors": ["src/pymt/utils/utils.py:Utils.rsa_key_valid"]}
{"id": "C105", "title": "rsa_key_valid raises on invalid keys if asked to", "statement": "With raise_exeptions=True rsa_key_valid raises for every invalid key.", "quantifier": "every byte string, both kinds", "why_tests_cant": "Needs a valid key of the other kind.", "anchors": ["src/pymt/utils/utils.py:Utils.rsa_key_valid"]}
{"id": "C106", "title": "hash_data", "statement": "hash_data(d, type=t) is the hexadecimal digest (as bytes) for sha256 and sha512, 64 characters for sha256, and raises ValueError for other names.", "quantifier": "every byte string, every name", "why_tests_cant": "All inputs.", "anchors": ["src/pymt/utils/utils.py:Utils.hash_data", "src/pymt/utils/utils.py:Utils.sha256", "src/pymt/utils/utils.py:Utils.sha512"]}
{"id": "C107", "title": "Exactly what get returns", "statement": "MPT.get(k) returns v exactly when k was last put with v and not deleted since, or when the trie is not secure, k is absent, and either v is empty and two present keys continue k with different high nibbles, or exactly one present key extends k, its value is v, and k is empty or some present key agrees with k up to the last nibble and differs there.", "quantifier": "every history with failing storages, both modes, every key and value", "why_tests_cant": "An equivalence over all sets of keys.", "anchors": ["src/pymt/mpt.py:MPT.get", "src/pymt/mpt.py:MPT._get"]}
{"id": "C108", "title": "KeyError for absent keys", "statement": "As documented, MPT.get and MPT.delete raise KeyError when there is no value associated with the key.", "quantifier": "every history, every absent key", "why_tests_cant": "The tests expect whatever is raised; that KeyError is never raised on a trie with a key needs all shapes.", "anchors": ["src/pymt/mpt.py:MPT.get", "src/pymt/mpt.py:MPT._get", "src/pymt/mpt.py:MPT.delete"]}
{"id": "C109", "title": "Exceptions of get", "statement": "For an absent key of a non-empty trie, which exception MPT.get raises is determined by the set of present keys: with p the longest beginning of k (in nibbles) shared with a present key, KeyNotFoundError if one key begins with p, ExtensionPathError if several do and all continue alike (AttributeError if k ends there and a node starts there), BranchPathError if they fork at p and k goes on.", "quantifier": "every history, both modes, every absent key", "why_tests_cant": "All shapes of tries.", "anchors": ["src/pymt/mpt.py:MPT.get", "src/pymt/mpt.py:MPT._get"]}
{"id": "C110", "title": "Exceptions of delete", "statement": "For an absent key of a non-empty trie MPT.delete raises LeafPathError, ExtensionPathError, AssertionError or BranchPathError, determined by the set of present keys, and leaves the trie and its storage as they were.", "quantifier": "every history, both modes, every absent key", "why_tests_cant": "All shapes of tries.", "anchors": ["src/pymt/mpt.py:MPT.delete", "src/pymt/mpt.py:MPT._delete"]}
{"id": "C111", "title": "Inclusion proofs of absent keys", "statement": "For an absent key get_proof_of_inclusion makes a proof exactly when some present key extends it and a node of the trie starts, or the keys fork, where it ends; otherwise it raises LeafPathError, ExtensionPathError or BranchPathError, determined by the set of present keys.", "quantifier": "every history, both modes, every absent key", "why_tests_cant": "All shapes of tries.", "anchors": ["src/pymt/mpt.py:MPT.get_proof_of_inclusion", "src/pymt/mpt.py:MPT._get_proof_of_inclusion"]}
{"id": "C112", "title": "Exactly when exclusion proofs are made and accepted", "statement": "get_proof_of_exclusion raises ValueError on an empty trie, PoeError if contains answers True, and otherwise makes a proof. A trie with the same root refuses that proof if the walk leaves an extension at the root, or if it ends at a leaf whose remaining path is the whole key; if the walk leaves a deeper extension it accepts, or raises PoeError (only when some value is shorter than 32 bytes); in all other cases it accepts.", "quantifier": "every history, both modes, every absent key", "why_tests_cant": "All shapes of tries.", "anchors": ["src/pymt/mpt.py:MPT.get_proof_of_exclusion", "src/pymt/mpt.py:MPT.verify_proof_of_exclusion", "src/pymt/mpt.py:MPT._verify_proof_of_exclusion"]}
{"id": "C113", "title": "SparseEMPT is a dictionary of references", "statement": "Whatever updates and deletes were made on a SparseEMPT, and whichever of them raised, get_reference(k) of a key last updated with the bytes b and not deleted since is the reference (k, b), and contains(k) is True; contains(k) is False for absent keys that extend no present key (always in secure mode). update with bytes and delete of a present key succeed; delete of an absent key raises (KeyNotFoundError where contains is exact) and changes nothing. An EMPT with the same content has the same root hash.", "quantifier": "every history with failing storages, both modes, every key and value", "why_tests_cant": "The tests use a few fixed keys and never interleave failures.", "anchors": ["src/pymt/empt.py:SparseEMPT.update", "src/pymt/empt.py:SparseEMPT.delete", "src/pymt/empt.py:SparseEMPT.contains", "src/pymt/empt.py:SparseEMPT.get_reference"]}
{"id": "C114", "title": "get_reference of an absent key", "statement": "EMPT.get_reference(k) and SparseEMPT.get_reference(k) return a reference only for present keys, and the key of that reference is k.", "quantifier": "every history, every key", "why_tests_cant": "The shape of the key set matters: one key extending k and another sharing its beginning.", "anchors": ["src/pymt/empt.py:EMPT.get_reference", "src/pymt/empt.py:SparseEMPT.get_reference"]}
{"id": "C115", "title": "Exactly which reference get_reference returns", "statement": "SparseEMPT.get_reference(k) returns the reference r exactly when r's key is present with r's data, and r's key is k, or the trie is not secure, k is absent, r's key is the only present key extending k, and k is empty or some present key agrees with k up to the last nibble and differs there.", "quantifier": "every history, both modes, every key", "why_tests_cant": "An equivalence over all sets of keys.", "anchors": ["src/pymt/empt.py:SparseEMPT.get_reference"]}
{"id": "C116", "title": "Encoding SparseEMPT and RootEMPT", "statement": "decode_rlp(encode_rlp()) of a SparseEMPT has the same storage, root and mode and behaves alike in every call. A RootEMPT can always be encoded; the decoded one has the same root, root hash and mode; made from an EMPT, it gives the EMPT's answer to every proof of inclusion or exclusion.", "quantifier": "every history, both modes, every root below 2^57 bytes, every proof", "why_tests_cant": "All histories and all proofs.", "anchors": ["src/pymt/empt.py:SparseEMPT.encode_rlp", "src/pymt/empt.py:SparseEMPT.decode_rlp", "src/pymt/empt.py:RootEMPT.encode_rlp", "src/pymt/empt.py:RootEMPT.decode_rlp", "src/pymt/empt.py:EMPT.get_root_trie"]}
{"id": "C117", "title": "Exclusion proofs have no unused nodes", "statement": "If verify_proof_of_exclusion accepts a proof, whoever made it, each node in it is the root node or is referred to by another node of the proof.", "quantifier": "every trie, every proof", "why_tests_cant": "All proofs, including forged ones.", "anchors": ["src/pymt/mpt.py:MPT.verify_proof_of_exclusion", "src/pymt/mpt.py:MPT._verify_proof_of_exclusion"]}
{"id": "C118", "title": "Exactly which texts Proof.decode_json accepts", "statement": "Proof.decode_json(s) returns a proof exactly when s is a JSON text (RFC 8259, and also NaN, Infinity and -Infinity) of an object whose last entry for proof_type is MT-POI, whose last entries for target_key, root_hash and timestamp are strings with a UTF-8 form and whose entry proof is a loop over strings with a UTF-8 form; the proof has these bytes. A text that is not JSON raises JSONDecodeError, and no other text does. A text has at most one value.", "quantifier": "every string", "why_tests_cant": "All strings, not only those that encode_json writes.", "anchors": ["src/pymt/proof.py:Proof.decode_json"]}
{"id": "C119", "title": "The text of Proof.encode_json", "statement": "Proof.encode_json() is ASCII and a JSON text of the object with proof, proof_type, target_key, root_hash and timestamp, in the sense of RFC 8259, so that any JSON reader reads the same strings; their UTF-8 form is the bytes of the proof.", "quantifier": "every proof whose parts are valid UTF-8", "why_tests_cant": "A round trip with the library's own reader does not show that other readers agree.", "anchors": ["src/pymt/proof.py:Proof.encode_json"]}
{"id": "C120", "title": "Exactly which messages decrypt accepts", "statement": "RsaKeyPair.decrypt(m, pk) returns p exactly when m is the UTF-8 form of a JSON text of an object whose last entries enc_session_key, nonce, tag, ciphertext and signature are texts that bytes.fromhex reads, the signature is one of the ciphertext under pk, the session key decrypts with the reader's key, and AES-EAX with this session key and nonce encrypts p to ciphertext and tag. encrypt sends such a message.", "quantifier": "every message, every pair of keys", "why_tests_cant": "All byte strings, including forged ones.", "anchors": ["src/pymt/keypairs.py:RsaKeyPair.decrypt", "src/pymt/keypairs.py:RsaKeyPair.encrypt"]}
{"id": "C121", "title": "Exactly which key strings load", "statement": "from_key_string(s, password) returns a key pair exactly when s is a JSON text of an object that has an entry nickname and whose last entry private_key is text that bytes.fromhex reads, and these bytes are a key for the password; the nickname is the last entry of this name, whatever it is. Nothing else of the object counts. to_key_string writes such an object.", "quantifier": "every string, every password, every class", "why_tests_cant": "All strings.", "anchors": ["src/pymt/keypairs.py:RsaKeyPair.from_key_string", "src/pymt/keypairs.py:RsaKeyPair.to_key_string"]}
{"id": "C122", "title": "A key string keeps the nickname", "statement": "from_key_string(to_key_string(password), password) is a key pair with the same nickname and key.", "quantifier": "every nickname that is a Python string, every private key", "why_tests_cant": "Only nicknames with surrogates are affected.", "anchors": ["src/pymt/keypairs.py:RsaKeyPair.to_key_string", "src/pymt/keypairs.py:RsaKeyPair.from_key_string"]}
{"id": "C123", "title": "NibblePath.at with negative positions", "statement": "path.at(i) with i < 0 counts from the end of the path, as indexing of Python sequences does, and raises IndexError if i is before the beginning.", "quantifier": "every path, every integer", "why_tests_cant": "The tests only use positions inside the path.", "anchors": ["src/pymt/utils/nibble_path.py:NibblePath.at"]}
{"id": "C124", "title": "The nickname of a loaded key pair is a string", "statement": "The nickname of a key pair returned by from_key_string is a str, as the constructor requires.", "quantifier": "every key string", "why_tests_cant": "The tests only load what to_key_string wrote.", "anchors": ["src/pymt/keypairs.py:RsaKeyPair.from_key_string", "src/pymt/keypairs.py:RsaKeyPair.__init__"]}
{"id": "C125", "title": "RLP texts are those of the Yellow Paper", "statement": "What the library writes for an item is exactly the text that appendix B of the Yellow Paper assigns to it, it reads exactly these texts, each item has one text and each text one item; other bytes raise DecodingError, and an item that is too long for a text raises ValueError.", "quantifier": "every item, every byte string", "why_tests_cant": "All nestings and lengths.", "anchors": ["src/pymt/utils/node.py:Node.encode", "src/pymt/utils/node.py:Node.decode"]}
{"id": "C126", "title": "Node texts are those of the Yellow Paper", "statement": "NibblePath.encode writes exactly the hex-prefix form of a path, Node.encode exactly the structural form of a leaf, extension or branch. Node.decode accepts exactly the lists of two or seventeen items of these shapes, where in the flag byte only the bits for leaf and odd length, and in an even path no padding nibble, count.", "quantifier": "every path, every node, every byte string", "why_tests_cant": "All byte strings, not only those that encode writes.", "anchors": ["src/pymt/utils/node.py:Node.encode", "src/pymt/utils/node.py:Node.decode", "src/pymt/utils/nibble_path.py:NibblePath.encode", "src/pymt/utils/nibble_path.py:NibblePath.decode_with_type"]}
{"id": "C127", "title": "A node has one text", "statement": "Different byte strings are not decoded to the same node.", "quantifier": "every pair of byte strings", "why_tests_cant": "The tests only decode what encode wrote.", "anchors": ["src/pymt/utils/node.py:Node.decode", "src/pymt/utils/nibble_path.py:NibblePath.decode_with_type"]}
{"id": "C128", "title": "Exactly which bytes MPT.decode accepts", "statement": "MPT.decode(b) returns a trie exactly when b is the RLP text of a list of a root string, a list of strings and a truth value (nothing or the byte 1); the trie has this root and mode and stores under each digest the last of the strings with it. Other RLP texts raise DeserializationError, other bytes DecodingError.", "quantifier": "every byte string", "why_tests_cant": "All byte strings.", "anchors": ["src/pymt/mpt.py:MPT.decode"]}
{"id": "C129", "title": "Exactly which bytes DataReference.decode accepts", "statement": "DataReference.decode(b) returns a reference exactly when b is the RLP text of a list of FF, its key, its data and the shortest big-endian text of the hash of key and data.", "quantifier": "every byte string", "why_tests_cant": "All byte strings.", "anchors": ["src/pymt/empt.py:DataReference.decode"]}
{"id": "C130", "title": "Exactly which bytes Proof.decode_rlp accepts", "statement": "Proof.decode_rlp(b) returns a proof exactly when b is the RLP text of a list of an accepted type, a timestamp, a key, a root hash and a list of strings; these are then its parts.", "quantifier": "every byte string", "why_tests_cant": "All byte strings.", "anchors": ["src/pymt/proof.py:Proof.decode_rlp"]}
{"id": "C131", "title": "Proofs are not malleable", "statement": "A proof of inclusion or exclusion in which a node was replaced by other bytes is not accepted in place of the original.", "quantifier": "every trie, every proof, every node of the proof", "why_tests_cant": "All replacements.", "anchors": ["src/pymt/mpt.py:MPT.verify_proof_of_inclusion", "src/pymt/mpt.py:MPT.verify_proof_of_exclusion"]}
{"id": "C132", "title": "Exactly what Node.decode reads without data", "statement": "Node.decode(b, include_data=False) returns a node exactly when b has the shape of a leaf, extension or branch, whatever item stands for the value; the value is then the marker.", "quantifier": "every byte string", "why_tests_cant": "All byte strings.", "anchors": ["src/pymt/utils/node.py:Node.decode"]}
{"id": "C133", "title": "The marker says that there is a value", "statement": "Node.decode(b, include_data=False) puts the marker on a branch only if the branch has a value.", "quantifier": "every byte string", "why_tests_cant": "The tests do not decode branches without data.", "anchors": ["src/pymt/utils/node.py:Node.decode"]}
{"id": "C134", "title": "Nodes written without data can be read", "statement": "What encode(include_data=False) writes is decoded by Node.decode(..., include_data=False) to a node of the same shape.", "quantifier": "every node", "why_tests_cant": "The tests do not decode these texts.", "anchors": ["src/pymt/utils/node.py:Leaf.encode", "src/pymt/utils/node.py:Extension.encode", "src/pymt/utils/node.py:Branch.encode", "src/pymt/utils/node.py:Node.decode"]}
{"id": "C135", "title": "What the methods of a path do", "statement": "On paths whose offset is a position of their data, len, at, ==, starts_with, common_prefix, combine and encode are length, element, equality, prefix test, longest common prefix, concatenation and hex-prefix text of the nibbles, and none of them raises; consume(k) drops k nibbles; decode_with_type reads the hex-prefix text and raises IndexError only on no bytes; at() beyond the end raises IndexError.", "quantifier": "every pair of paths, every position, every byte string", "why_tests_cant": "All lengths and parities.", "anchors": ["src/pymt/utils/nibble_path.py:NibblePath.at", "src/pymt/utils/nibble_path.py:NibblePath.__eq__", "src/pymt/utils/nibble_path.py:NibblePath.starts_with", "src/pymt/utils/nibble_path.py:NibblePath.common_prefix", "src/pymt/utils/nibble_path.py:NibblePath.combine", "src/pymt/utils/nibble_path.py:NibblePath.encode", "src/pymt/utils/nibble_path.py:NibblePath.decode_with_type", "src/pymt/utils/nibble_path.py:NibblePath.consume"]}
{"id": "C136", "title": "Consuming too much raises", "statement": "consume(k) raises if the path has fewer than k nibbles.", "quantifier": "every path, every k", "why_tests_cant": "The tests do not consume more than there is.", "anchors": ["src/pymt/utils/nibble_path.py:NibblePath.consume", "src/pymt/utils/nibble_path.py:NibblePath.__len__"]}
{"id": "C137", "title": "A negative offset leaves out nibbles at the end", "statement": "As documented, with offset -1 the last nibble is skipped, and so on.", "quantifier": "every data, every negative offset", "why_tests_cant": "The tests do not use negative offsets.", "anchors": ["src/pymt/utils/nibble_path.py:NibblePath.__init__", "src/pymt/utils/nibble_path.py:NibblePath.at", "src/pymt/utils/nibble_path.py:NibblePath.__len__"]}
{"id": "C138", "title": "Every path has a text", "statement": "repr(p) and str(p) return for every path, and repr tells paths apart.", "quantifier": "every path, every pair of paths", "why_tests_cant": "The tests only print paths made from bytes.", "anchors": ["src/pymt/utils/nibble_path.py:NibblePath.__repr__", "src/pymt/utils/nibble_path.py:NibblePath.__str__", "src/pymt/utils/nibble_path.py:NibblePath.common_prefix", "src/pymt/utils/nibble_path.py:NibblePath.combine"]}
{"id": "C139", "title": "Texts of proofs", "statement": "repr of a proof is printable ASCII and tells proofs apart. The text of bytes in it is a Python literal of these bytes (a literal has one value), in double quotes exactly if there is a single and no double quote in them.", "quantifier": "every pair of proofs, every byte string", "why_tests_cant": "All byte strings.", "anchors": ["src/pymt/proof.py:Proof.__repr__", "src/pymt/proof.py:Proof.__hash__"]}
{"id": "C140", "title": "Texts of key pairs show no private key", "statement": "str and repr of a key pair depend on nothing but its class, its nickname and (repr) its public key, which repr determines; without keys repr raises AttributeError.", "quantifier": "every pair of key pairs", "why_tests_cant": "All keys.", "anchors": ["src/pymt/keypairs.py:RsaKeyPair.__str__", "src/pymt/keypairs.py:RsaKeyPair.__repr__", "src/pymt/keypairs.py:RsaAuthKeyPair.__repr__", "src/pymt/keypairs.py:RsaEncKeyPair.__repr__"]}
{"id": "C141", "title": "keccak_hash_list tells lists apart", "statement": "keccak_hash_list of different lists is different, unless a Keccak collision is found.", "quantifier": "every pair of lists of byte strings", "why_tests_cant": "All lists.", "anchors": ["src/pymt/utils/hash.py:keccak_hash_list"]}
{"id": "C142", "title": "file_exists and dir_exists look where the name points", "statement": "Utils.file_exists(n) and Utils.dir_exists(n) answer whether there is a file, a directory, at the place that the operating system gives the name n in the current directory.", "quantifier": "every name, every current directory, every file system", "why_tests_cant": "All names.", "anchors": ["src/pymt/utils/utils.py:Utils.file_exists", "src/pymt/utils/utils.py:Utils.dir_exists"]}
{"id": "C143", "title": "Exceptions of Proof.decode_json", "statement": "decode_json raises NotImplementedError exactly for the text of an object with an entry proof and an entry proof_type that contains MPT, as part of a string, element of a list or key of an object; otherwise it raises nothing but JSONDecodeError, KeyError, TypeError, AttributeError and UnicodeEncodeError.", "quantifier": "every text", "why_tests_cant": "All texts.", "anchors": ["src/pymt/proof.py:Proof.decode_json"]}
{"id": "C144", "title": "Time stamps are in order", "statement": "The time stamps of two proofs compare, as byte strings, as the moments when the proofs were made; they are equal only for the same microsecond.", "quantifier": "every pair of moments", "why_tests_cant": "A time stamp without microseconds is shorter; a test hits it once in a million runs.", "anchors": ["src/pymt/proof.py:Proof.__init__", "src/pymt/proof.py:Proof.timestamp"]}
{"id": "C145", "title": "The root is the one the Yellow Paper defines", "statement": "After any calls, root_hash() is TRIE(J) of appendix D of the Yellow Paper for the pairs J that the dictionary holds (keys hashed in secure mode), and root() is the reference n(J): the text of the root node if it has fewer than 32 bytes, otherwise its Keccak digest.", "quantifier": "every history of calls with failing storages, both modes", "why_tests_cant": "Tests compare a few recorded roots. The definition covers every set of pairs.", "anchors": ["src/pymt/mpt.py:MPT.root_hash", "src/pymt/mpt.py:MPT.root", "src/pymt/mpt.py:MPT.update", "src/pymt/mpt.py:MPT.delete"]}
{"id": "C146", "title": "The roots of SparseEMPT and EMPT are the ones the Yellow Paper defines", "statement": "The root hash of a SparseEMPT, of an EMPT, is TRIE(J) where J holds, for every key, the RLP text of FF, the key, the bytes stored under it and the digest of both as a number.", "quantifier": "every history of calls, both modes", "why_tests_cant": "All sets of pairs.", "anchors": ["src/pymt/empt.py:SparseEMPT.root_hash", "src/pymt/empt.py:EMPT.root_hash", "src/pymt/empt.py:EMPT.update"]}
{"id": "C147", "title": "Exactly the nodes of an inclusion proof, and how many", "statement": "For a present key, the elements of the proof of inclusion are exactly the texts of the nodes of the tree of C145 that lie on the way to the key, from the root down; there is at least one, and at most one more than the key has nibbles.", "quantifier": "every history of calls, every present key, both modes", "why_tests_cant": "All tries.", "anchors": ["src/pymt/mpt.py:MPT.get_proof_of_inclusion"]}
{"id": "C148", "title": "Exactly the nodes of an exclusion proof, and how many", "statement": "If a proof of exclusion is returned, its elements are exactly the texts of the nodes on the way to the key, without an extension whose path the key leaves, and the text of a leaf with the rest of the key; there are at most two more than the key has nibbles.", "quantifier": "every history of calls, every key, both modes", "why_tests_cant": "All tries.", "anchors": ["src/pymt/mpt.py:MPT.get_proof_of_exclusion"]}
{"id": "C149", "title": "The storage holds the whole tree", "statement": "Every node of the tree of C145 whose text has at least 32 bytes is in the storage under its digest.", "quantifier": "every history of calls with failing storages, every node", "why_tests_cant": "All tries, all places where a call can fail.", "anchors": ["src/pymt/mpt.py:MPT.update", "src/pymt/mpt.py:MPT.delete"]}
{"id": "C150", "title": "An update touches few nodes", "statement": "update(k, v) makes at most 2n+3 accesses to the storage, at most n+2 of them writes, where n is the number of nibbles of k (64 in secure mode), whatever the size of the trie, and whether it returns or raises; the storage grows by at most n+2 entries.", "quantifier": "every history of calls, every key and value, every pattern of failing accesses, every stack depth", "why_tests_cant": "A bound on all tries; tests do not count accesses.", "anchors": ["src/pymt/mpt.py:MPT.update", "src/pymt/mpt.py:MPT._update"]}
{"id": "C151", "title": "A deletion touches few nodes", "statement": "delete(k) makes at most 2n+4 accesses to the storage, at most n+1 of them writes, where n is the number of nibbles of k (64 in secure mode), whatever the size of the trie, and whether it returns or raises; the storage grows by at most n+1 entries.", "quantifier": "every history of calls, every key, every pattern of failing accesses, every stack depth", "why_tests_cant": "A bound on all tries; tests do not count accesses.", "anchors": ["src/pymt/mpt.py:MPT.delete", "src/pymt/mpt.py:MPT._delete"]}
{"id": "C152", "title": "A trie with some of its nodes never answers wrongly", "statement": "Take the root and the mode of a non-empty trie and a storage that has some of its nodes and perhaps entries of other tries, as long as no entry has other content under the same key. Then get, in, get_proof_of_inclusion and get_proof_of_exclusion give the answer of the whole trie or raise KeyError, and the verify methods answer the same. update and delete raise KeyError and leave the root, or return or raise the same and lead to the same root.", "quantifier": "every history of calls, every such storage, every key, every failing access", "why_tests_cant": "All ways of missing nodes. A trie that took a missing node for an absent key would pass tests on whole storages.", "anchors": ["src/pymt/mpt.py:MPT.__init__", "src/pymt/mpt.py:MPT.get", "src/pymt/mpt.py:MPT.update", "src/pymt/mpt.py:MPT.delete"]}
{"id": "C153", "title": "Tries that share a storage do not notice each other", "statement": "Create any number of tries, secure or not, on one empty dictionary and call update and delete on them in any order, with storage accesses that raise. Each call returns or raises what it would have if the trie had a dictionary of its own, and afterwards each trie has the root and gives the answers of the trie with its own dictionary.", "quantifier": "every number of tries and every order of calls", "why_tests_cant": "All interleavings; a deletion that removed shared nodes would pass tests with one trie.", "anchors": ["src/pymt/mpt.py:MPT.__init__", "src/pymt/mpt.py:MPT.update", "src/pymt/mpt.py:MPT.delete"]}
{"id": "C154", "title": "The answers about a key depend on few entries", "statement": "For every trie and key there are at most n+1 keys of the storage, n the number of nibbles of the key (64 in secure mode), such that the answers of get, in, get_proof_of_inclusion and get_proof_of_exclusion depend on nothing but the root and these entries.", "quantifier": "every history of calls, every key, every storage that has the same entries there", "why_tests_cant": "A bound on all tries.", "anchors": ["src/pymt/mpt.py:MPT.get", "src/pymt/mpt.py:MPT.get_proof_of_inclusion", "src/pymt/mpt.py:MPT.get_proof_of_exclusion"]}
{"id": "C155", "title": "An inclusion proof is storage enough for its key", "statement": "Put the nodes of the proof of inclusion of a present key into an empty dictionary, each under its digest. A trie on it with the root of the whole trie answers about this key as the whole trie does, answers about other keys the same or raises KeyError, and update of this key with any value returns or raises the same and leads to the same root as on the whole trie.", "quantifier": "every history of calls, every present key, every new value, every failing access", "why_tests_cant": "All tries and keys.", "anchors": ["src/pymt/mpt.py:MPT.get_proof_of_inclusion", "src/pymt/mpt.py:MPT.update", "src/pymt/mpt.py:MPT.get"]}
{"id": "C156", "title": "How large the storage gets", "statement": "After a history of calls on a new trie the storage has, under different keys, at most n+2 entries for each update and n+1 for each delete, n the number of nibbles of its key (64 in secure mode), also for the calls that raised.", "quantifier": "every history of calls with failing storages", "why_tests_cant": "All histories.", "anchors": ["src/pymt/mpt.py:MPT.update", "src/pymt/mpt.py:MPT.delete"]}
{"id": "C157", "title": "The proofs of a MerkleTree are the audit paths of RFC 6962", "statement": "After the tree was built over some values, the proof of a value that was put is, for the first position with this value, the siblings on the way from that leaf to the root, lowest first, each with its side and in lower-case hexadecimal; its root is the hash of the tree and its length is at most the logarithm to base two, rounded up, of the number of values.", "quantifier": "every history of calls that ends in a built tree, every value in it, both modes", "why_tests_cant": "All numbers of leaves; odd levels and repeated values are where such code goes wrong.", "anchors": ["src/pymt/mt.py:MerkleTree.get_proof_of_inclusion", "src/pymt/merkletools.py:MerkleTools.get_proof"]}
{"id": "C158", "title": "Exactly which inclusion proofs are accepted", "statement": "verify_proof_of_inclusion returns True exactly for the proofs of type MPT-POI with the root hash of the trie, whose elements are all texts of nodes, the first with the digest root_hash(), where following the nibbles of the key from root(), each digest to the last element whose node has that reference, leads to a leaf with exactly the rest of the key, or the key ends at a leaf or a branch.", "quantifier": "every trie whatever its storage, every proof object, every stack depth", "why_tests_cant": "All proofs, also those no honest party makes.", "anchors": ["src/pymt/mpt.py:MPT.verify_proof_of_inclusion", "src/pymt/mpt.py:MPT._verify_proof_of_inclusion"]}
{"id": "C159", "title": "Exactly which exclusion proofs are accepted", "statement": "verify_proof_of_exclusion returns True exactly for the proofs of type MPT-POE whose last element is the text of a leaf or branch with the data null, whose other elements are texts of nodes, the first with the digest root_hash(), where following the nibbles of the key from root() meets every element's reference once and ends at a digest that no element has or one met before, or at a node that does not say how to go on, other than a leaf whose path is the whole key.", "quantifier": "every trie whatever its storage, every proof object, every stack depth", "why_tests_cant": "All proofs, also those no honest party makes.", "anchors": ["src/pymt/mpt.py:MPT.verify_proof_of_exclusion", "src/pymt/mpt.py:MPT._verify_proof_of_exclusion"]}
{"id": "C160", "title": "What every call on a MerkleTree does", "statement": "After any calls on a new MerkleTree, each further call of put, put_list, make_tree, reset_tree, get_merkle_root, get_proof_of_inclusion, verify_proof_of_inclusion, get and __hash__ answers or raises exactly what the values put and the last build determine: a tree that was asked for its root (or built) while it was empty has no root until it is built again; otherwise the first question for the root builds it, and the root is the one of the values at that time until make_tree or reset_tree.", "quantifier": "every sequence of calls with any arguments, both modes, any hash function", "why_tests_cant": "All sequences of calls. The state between builds is where wrong programs differ.", "anchors": ["src/pymt/mt.py:MerkleTree.put", "src/pymt/mt.py:MerkleTree.put_list", "src/pymt/mt.py:MerkleTree.get_merkle_root", "src/pymt/mt.py:MerkleTree.get_proof_of_inclusion", "src/pymt/mt.py:MerkleTree.verify_proof_of_inclusion", "src/pymt/mt.py:MerkleTree.get"]}
{"id": "C161", "title": "What verification of a Merkle proof answers or raises", "statement": "verify_proof_of_inclusion raises for the first element that is not a pair of UTF-8 texts (IndexError for empty bytes, AttributeError for other bytes, UnicodeDecodeError otherwise), then UnicodeDecodeError or ValueError if the root is not text or not hexadecimal, then KeyError for the first step whose side is not left or right or whose left sibling is not hexadecimal; it returns False for a right sibling that is not hexadecimal or if the path does not lead to the root in the proof; ValueError if the tree has no root; otherwise True exactly if the root text is the root of the tree in lower-case hexadecimal.", "quantifier": "every tree after any calls, every Proof object", "why_tests_cant": "All byte strings in all places of a proof.", "anchors": ["src/pymt/mt.py:MerkleTree.verify_proof_of_inclusion", "src/pymt/merkletools.py:MerkleTools.verify_proof_of_inclusion"]}
{"id": "C162", "title": "Merkle proofs made after more values were put", "statement": "If values are put after the tree was built, and it is not built again, the proof of a value it was built over is the one before the puts, except for the last of an odd number (more than one) of values: its proof then begins with a further element, the first new value as right sibling.", "quantifier": "every built tree, every calls since that do not build or reset, every value in it, both modes", "why_tests_cant": "All numbers of values and all calls in between.", "anchors": ["src/pymt/mt.py:MerkleTree.get_proof_of_inclusion", "src/pymt/merkletools.py:MerkleTools.get_proof_of_inclusion"]}
{"id": "C163", "title": "A tree accepts the proofs it makes between builds", "statement": "With secure=False, if get_proof_of_inclusion returns a proof of a value that the tree was built over, verify_proof_of_inclusion accepts it, also after further values were put.", "quantifier": "every built tree, every calls since that do not build or reset", "why_tests_cant": "The failing case needs an odd number of values and a put after the build.", "anchors": ["src/pymt/mt.py:MerkleTree.get_proof_of_inclusion", "src/pymt/mt.py:MerkleTree.verify_proof_of_inclusion"]}
{"id": "C164", "title": "A value that the root does not cover has no proof", "statement": "get_proof_of_inclusion raises for a value that was put after the last build.", "quantifier": "every built tree, every value put since", "why_tests_cant": "It depends on the number of values before and after the build.", "anchors": ["src/pymt/mt.py:MerkleTree.get_proof_of_inclusion", "src/pymt/merkletools.py:MerkleTools.get_proof_of_inclusion"]}
{"id": "C165", "title": "Comparing any two Merkle trees", "statement": "== between two MerkleTrees, after any calls on them, returns whether the numbers that their roots write are equal if both have a root that is not empty, and raises ValueError otherwise.", "quantifier": "every two sequences of calls, both modes", "why_tests_cant": "All pairs of states.", "anchors": ["src/pymt/merkletools.py:MerkleTools.__eq__", "src/pymt/merkletools.py:MerkleTools.__hash__"]}
{"id": "C166", "title": "reset_tree gives a new tree", "statement": "After reset_tree every call answers as on a new MerkleTree of the same mode.", "quantifier": "every calls before, every calls after", "why_tests_cant": "All histories.", "anchors": ["src/pymt/mt.py:MerkleTree.reset_tree", "src/pymt/merkletools.py:MerkleTools.reset_tree"]}
{"id": "C167", "title": "Creating Merkle trees and counting their values", "statement": "MerkleTree(secure, hash_type) succeeds exactly if secure is a bool and hash_type is one of the nine names, upper and lower case not distinguished. get_count is the number of values put since the last reset, and the tree is ready exactly once it was built or asked for its root.", "quantifier": "every argument, every sequence of calls", "why_tests_cant": "All texts and histories.", "anchors": ["src/pymt/mt.py:MerkleTree.__init__", "src/pymt/mt.py:MerkleTree.get_count", "src/pymt/merkletools.py:MerkleTools.get_tree_ready_state"]}
{"id": "C168", "title": "The number of a trie, and when two tries are equal", "statement": "MPT.__hash__ reads the digest of the root reference as hexadecimal text in the way of int(b, 16): white space around, an optional sign, an optional 0x, digits with single underscores between them. It returns the number written, raises ValueError if the digest is not such a text and TypeError for an empty trie. == between two tries raises what the left one raises, then what the right one raises, and otherwise compares the two numbers.", "quantifier": "every two tries, any hash function", "why_tests_cant": "A digest of 32 random bytes is almost never a text; the rare cases are out of reach of tests.", "anchors": ["src/pymt/mpt.py:MPT.__hash__", "src/pymt/mpt.py:MPT.__eq__"]}
{"id": "C169", "title": "The built-in hash of a trie, and equality with other objects", "statement": "hash(trie) is the number of the trie if it fits 64 bits with a sign, otherwise the remainder of its absolute value modulo 2^61 - 1 with its sign, and -2 in place of -1; it raises exactly when __hash__ does. Equal tries have equal hashes. A trie is not equal to an object that is not a trie, and that comparison never raises.", "quantifier": "every trie, every other operand, any hash function", "why_tests_cant": "All numbers.", "anchors": ["src/pymt/mpt.py:MPT.__hash__", "src/pymt/mpt.py:MPT.__eq__"]}
{"id": "C170", "title": "What Node.decode raises", "statement": "Node.decode raises DecodingError exactly if its argument is not an RLP text; otherwise AssertionError if the item does not have length 2 or 17, TypeError for strings of these lengths, for a branch whose value is a list, for a leaf whose value is a list and for a path that is a non-empty list, IndexError if the path is empty; nothing else.", "quantifier": "every byte string", "why_tests_cant": "All byte strings.", "anchors": ["src/pymt/utils/node.py:Node.decode"]}
{"id": "C171", "title": "What verification of an inclusion proof answers or raises", "statement": "verify_proof_of_inclusion of an MPT answers or raises exactly what follows from the texts in the proof: TypeError for another type, ValueError for an empty trie, IndexError without elements, False if the first element does not have the digest of the root, False for an element that is not RLP or holds a short reference that is not RLP, else what the first unreadable element raises; then the walk along the key answers False at a missing node, at another leaf and at an extension with nothing left, raises ExtensionPathError, BranchPathError where the key leaves the tree and RecursionError if it is too deep; and False if the root in the proof is another.", "quantifier": "every trie, whatever it holds, every Proof object, any hash function", "why_tests_cant": "All byte strings in all places of a proof.", "anchors": ["src/pymt/mpt.py:MPT.verify_proof_of_inclusion", "src/pymt/mpt.py:MPT._verify_proof_of_inclusion"]}
{"id": "C172", "title": "What verification of an exclusion proof answers or raises", "statement": "verify_proof_of_exclusion of an MPT answers or raises exactly what follows from the texts in the proof: as for inclusion proofs up to the digest of the first element; then what reading the last element raises (AttributeError for an extension), False if its value is not null; then what the first unreadable other element raises; then what the walk along the key raises (PoeError at a node that is not in the proof or was met before); False if a node is left over or the walk ended at the leaf of the key, and True otherwise.", "quantifier": "every trie, whatever it holds, every Proof object, any hash function", "why_tests_cant": "All byte strings in all places of a proof.", "anchors": ["src/pymt/mpt.py:MPT.verify_proof_of_exclusion", "src/pymt/mpt.py:MPT._verify_proof_of_exclusion"]}
{"id": "C173", "title": "Verification of a trie proof returns a bool", "statement": "verify_proof_of_inclusion and verify_proof_of_exclusion of an MPT that is not empty return True or False for every proof of the right type with at least one element.", "quantifier": "every trie, every Proof object", "why_tests_cant": "The proofs come from elsewhere and may hold any bytes.", "anchors": ["src/pymt/mpt.py:MPT.verify_proof_of_inclusion", "src/pymt/mpt.py:MPT.verify_proof_of_exclusion"]}
{"id": "C174", "title": "What every call on an EMPT does", "statement": "Whatever calls on an EMPT came before, and whether or not they raised (storages that raise in the middle of a call, too little stack, keys and values of wrong types): an item that is read is the one stored last, or InvalidReferenceError is raised if only one of the two storages was written since, or KeyError if there is none; references, membership, pop, popitem, setdefault, clear, items, values, keys and len answer or raise what follows from the two storages; a call that raises leaves both storages as they were, or, if it raised between them, changes the first only; and the root hash is that of the references, after the Yellow Paper. Where storages do not raise and the stack suffices there is no other answer.", "quantifier": "every sequence of calls, every place where a storage raises, every limit of the stack", "why_tests_cant": "All histories, with all their half-done calls.", "anchors": ["src/pymt/empt.py:EMPT.__getitem__", "src/pymt/empt.py:EMPT.__setitem__", "src/pymt/empt.py:EMPT.__delitem__", "src/pymt/empt.py:EMPT.__contains__", "src/pymt/empt.py:EMPT.get_reference", "src/pymt/empt.py:EMPT.update", "src/pymt/empt.py:EMPT.delete", "src/pymt/empt.py:EMPT.__iter__", "src/pymt/empt.py:EMPT.__len__"]}
{"id": "C175", "title": "What every call on a SparseEMPT does", "statement": "Whatever calls on a SparseEMPT came before, and whether or not they raised: references, membership, updates and deletions answer or raise what follows from the bytes stored last under the keys; only bytes can be stored under bytes, reading an item and get_root_trie raise TypeError; a call that raises changes nothing; and the root hash is that of the references, after the Yellow Paper. Where storages do not raise and the stack suffices there is no other answer.", "quantifier": "every sequence of calls, every place where a storage raises, every limit of the stack", "why_tests_cant": "All histories, with all their failed calls.", "anchors": ["src/pymt/empt.py:SparseEMPT.__getitem__", "src/pymt/empt.py:SparseEMPT.get_reference", "src/pymt/empt.py:SparseEMPT.contains", "src/pymt/empt.py:SparseEMPT.update", "src/pymt/empt.py:SparseEMPT.delete", "src/pymt/empt.py:SparseEMPT.get_root_trie"]}
{"id": "C176", "title": "Equality of EMPTs", "statement": "Two EMPTs compare as equal exactly if they hold the same keys and equal values, in any order and in any mode; if a value cannot be read the comparison raises what reading it raises, the left operand first, in order of insertion.", "quantifier": "every two sequences of calls, whether or not they raised", "why_tests_cant": "All pairs of histories.", "anchors": ["src/pymt/empt.py:EMPT.__getitem__", "src/pymt/empt.py:EMPT.__iter__", "src/pymt/empt.py:EMPT.__len__"]}
{"id": "C177", "title": "What decoding raises", "statement": "MPT.decode (and the decoding of SparseEMPT and RootEMPT), DataReference.decode and Proof.decode_rlp raise DecodingError exactly for bytes that are not RLP, and DeserializationError exactly for RLP of another shape; DataReference.decode raises ValueError exactly for the right shape with another flag or another checksum, Proof.decode_rlp raises TypeError exactly for the right shape with an unknown proof type, and MPT.decode raises nothing else. Node.decode without data raises what Node.decode raises, except that the places of the values are not looked at.", "quantifier": "every byte string", "why_tests_cant": "All byte strings; the border between the exceptions.", "anchors": ["src/pymt/mpt.py:MPT.decode", "src/pymt/empt.py:DataReference.decode", "src/pymt/proof.py:Proof.decode_rlp", "src/pymt/utils/node.py:Node.decode"]}
{"id": "C178", "title": "The recursion limit", "statement": "For every trie, whatever its storage holds: with a larger recursion limit get, contains, update, delete, making proofs and verifying proofs give the same answer or exception, unless they raised RecursionError. An update or delete that raises RecursionError has changed nothing, not even the storage. A present key needs exactly as many frames for get, contains and get_proof_of_inclusion as its inclusion proof has nodes; an absent key needs as many for contains and get_proof_of_exclusion as its exclusion proof has elements, or one less.", "quantifier": "every trie and storage, every key, every limit", "why_tests_cant": "All limits and all tries.", "anchors": ["src/pymt/mpt.py:MPT.get", "src/pymt/mpt.py:MPT.contains", "src/pymt/mpt.py:MPT.update", "src/pymt/mpt.py:MPT.delete", "src/pymt/mpt.py:MPT.get_proof_of_inclusion", "src/pymt/mpt.py:MPT.get_proof_of_exclusion", "src/pymt/mpt.py:MPT.verify_proof_of_inclusion", "src/pymt/mpt.py:MPT.verify_proof_of_exclusion"]}
{"id": "C179", "title": "EMPTs over given data", "statement": "build_trie of an EMPT with an empty trie storage updates the entries of the data storage in order, up to the first whose update raises (that exception is raised) or whose value is not bytes (TypeError), and leaves the data storage alone. With nodes in the trie storage it raises RuntimeError after deleting one node. Over any data storage, get(k) raises KeyError if there is no data, the exception of get_reference(k) if that raises, TypeError for a bytearray and AttributeError for an object without encode_rlp, InvalidReferenceError if the checksum of the reference is not that of k and the data, and otherwise returns the data.", "quantifier": "every data storage, every sequence of calls before, every key", "why_tests_cant": "All contents of the data storage with all histories of the trie.", "anchors": ["src/pymt/empt.py:EMPT.build_trie", "src/pymt/empt.py:EMPT.get"]}
{"id": "C180", "title": "Injected data is detected", "statement": "If somebody puts an entry into the data storage under a key that was never stored, EMPT.get of this key raises.", "quantifier": "every history, every key, every value", "why_tests_cant": "Needs the right three keys: one whose nibbles end where the leaf of a longer key begins.", "anchors": ["src/pymt/empt.py:EMPT.get", "src/pymt/empt.py:DataReference.__eq__"]}
{"id": "C181", "title": "Every call on an MPT", "statement": "For every sequence of calls of get, contains, update (in secure mode with any value, otherwise with a non-empty one), delete, get_proof_of_inclusion, get_proof_of_exclusion, verify_proof_of_inclusion, verify_proof_of_exclusion, root and root_hash on a new MPT, where any call may run out of stack frames and any access to the storage may raise: the answers and exceptions are those of a dictionary with the rules below. An update or delete that raises changes no later answer. Proofs consist of exactly the node texts of the Yellow Paper tree of the dictionary on the way to the key, the key as the trie sees it, the clock reading and the root. Verification depends on nothing but the root, which depends only on the dictionary and, if that is empty, on whether anything was stored before. On an empty trie delete and both proof methods raise ValueError, contains answers False, and get raises KeyError if nothing was ever stored and ValueError otherwise. With enough frames and a storage that does not fail, these rules leave exactly one sequence of answers.", "quantifier": "every sequence of calls of any length, every key, value and clock reading, every pattern of storage failures, every recursion limit", "why_tests_cant": "All interleavings of all methods, with failures at every point.", "anchors": ["src/pymt/mpt.py:MPT.get", "src/pymt/mpt.py:MPT.contains", "src/pymt/mpt.py:MPT.update", "src/pymt/mpt.py:MPT.delete", "src/pymt/mpt.py:MPT.get_proof_of_inclusion", "src/pymt/mpt.py:MPT.get_proof_of_exclusion", "src/pymt/mpt.py:MPT.verify_proof_of_inclusion", "src/pymt/mpt.py:MPT.verify_proof_of_exclusion", "src/pymt/mpt.py:MPT.root", "src/pymt/mpt.py:MPT.root_hash"]}
{"id": "C182", "title": "Plain tries with empty values", "statement": "For every sequence of updates and deletes on a new MPT that does not hash its keys, where values may be empty, any call may run out of stack frames and any access to the storage may raise: the trie afterwards answers get and contains as a dictionary kept by these rules. An update of k to v that returns sets k to v, except that an empty v leaves k absent if a stored key properly extends k; and stored keys which are proper prefixes of k and whose value is empty disappear. A delete that returns removes exactly its key, which was present; with enough frames and a storage that does not fail, delete returns exactly if the key is present and update always returns. A call that raises changes nothing. Without empty values, or where no key extends another, this is an ordinary dictionary.", "quantifier": "every sequence of updates and deletes of any length, every key and value including empty ones, every pattern of storage failures, every recursion limit", "why_tests_cant": "What is lost depends on all keys present and on the order of calls; a wrong rule differs only on particular combinations of prefixes and empty values.", "anchors": ["src/pymt/mpt.py:MPT.update", "src/pymt/mpt.py:MPT.delete", "src/pymt/mpt.py:MPT.get", "src/pymt/mpt.py:MPT.contains"]}
{"id": "C183", "title": "Root of a plain trie with empty values", "statement": "Two MPTs that do not hash their keys and have the same contents, after any updates (values may be empty) and deletes, have the same root hash.", "quantifier": "every two sequences of updates and deletes", "why_tests_cant": "The order of calls only matters where an empty value was lost.", "anchors": ["src/pymt/mpt.py:MPT.update", "src/pymt/mpt.py:MPT.root_hash"]}
{"id": "C184", "title": "Proofs in plain tries with empty values", "statement": "After any updates (values may be empty) and deletes on a new MPT that does not hash its keys, with any failures of the storage and any recursion limits: if the trie holds k and its root is a digest, get_proof_of_inclusion for k returns a proof which verify_proof_of_inclusion of every MPT with the same root accepts. Every proof accepted at this root, whoever made it, has a target key that is held or that a held key extends. get_proof_of_exclusion for k raises ValueError on an empty trie, PoeError where contains answers True, and otherwise returns a proof for k and the current root hash.", "quantifier": "every sequence of updates and deletes of any length, every key and value including empty ones, every pattern of storage failures, every proof offered for verification", "why_tests_cant": "Lost empty values leave branches with a single child behind, so that the shape of the trie depends on the history; no finite set of histories covers the shapes.", "anchors": ["src/pymt/mpt.py:MPT.get_proof_of_inclusion", "src/pymt/mpt.py:MPT.verify_proof_of_inclusion", "src/pymt/mpt.py:MPT.get_proof_of_exclusion"]}
{"id": "C185", "title": "What calls on key pairs change", "statement": "After any calls on any number of key pairs, each one still has its class, the nickname set last, and the keys of its last successful generate_keypair (or those it was created or loaded with). A file changes only by to_key_file with its name. A call that raises changes no key pair.", "quantifier": "every program of calls on every number of key pairs of the three classes, every argument, every failure of the disk and of the key generator", "why_tests_cant": "Interference between objects and calls shows only in particular orders of calls; programs are unbounded.", "anchors": ["src/pymt/keypairs.py:RsaKeyPair.nickname", "src/pymt/keypairs.py:RsaKeyPair.public_key", "src/pymt/keypairs.py:RsaKeyPair.generate_keypair", "src/pymt/keypairs.py:RsaKeyPair.sign", "src/pymt/keypairs.py:RsaKeyPair.encrypt", "src/pymt/keypairs.py:RsaKeyPair.decrypt", "src/pymt/keypairs.py:RsaKeyPair.to_key_file", "src/pymt/keypairs.py:RsaKeyPair.from_key_file"]}
{"id": "C186", "title": "Key pairs refuse arguments of wrong types", "statement": "generate_keypair, sign, signature_valid, encrypt, decrypt, to_key_string, to_key_file, from_key_string, from_key_file and the constructor raise ValueError on an argument of a wrong type, whatever the other arguments are and also without keys; so do setting and deleting public_key and public_key_string and deleting nickname. Nothing changes.", "quantifier": "every state reached by any calls, every argument", "why_tests_cant": "All combinations of argument types, classes and states cannot be listed.", "anchors": ["src/pymt/keypairs.py:RsaKeyPair.__init__", "src/pymt/keypairs.py:RsaKeyPair.generate_keypair", "src/pymt/keypairs.py:RsaKeyPair.sign", "src/pymt/keypairs.py:RsaKeyPair.signature_valid", "src/pymt/keypairs.py:RsaKeyPair.encrypt", "src/pymt/keypairs.py:RsaKeyPair.decrypt", "src/pymt/keypairs.py:RsaKeyPair.to_key_string", "src/pymt/keypairs.py:RsaKeyPair.to_key_file", "src/pymt/keypairs.py:RsaKeyPair.from_key_string", "src/pymt/keypairs.py:RsaKeyPair.from_key_file", "src/pymt/keypairs.py:RsaKeyPair.public_key", "src/pymt/keypairs.py:RsaKeyPair.public_key_string", "src/pymt/keypairs.py:RsaKeyPair.nickname"]}
{"id": "C187", "title": "Signatures, messages and saved keys stay good", "statement": "A signature made by a key pair is valid for it through any other calls until it is given new keys, and valid for everyone with the public key it had, for ever. A message encrypted for a key pair can be decrypted until this key pair is given new keys. A saved key pair can be loaded, with its nickname and keys, until the file is written again.", "quantifier": "every program of calls between making and using, every data, key and passphrase, given correct primitives", "why_tests_cant": "The calls in between are any program of any length.", "anchors": ["src/pymt/keypairs.py:RsaKeyPair.sign", "src/pymt/keypairs.py:RsaKeyPair.signature_valid", "src/pymt/keypairs.py:RsaKeyPair.encrypt", "src/pymt/keypairs.py:RsaKeyPair.decrypt", "src/pymt/keypairs.py:RsaKeyPair.to_key_file", "src/pymt/keypairs.py:RsaKeyPair.from_key_file", "src/pymt/keypairs.py:RsaKeyPair.generate_keypair"]}
{"id": "C188", "title": "A save that raises leaves the file that was there", "statement": "If to_key_file raises, although the disk works, from_key_file still loads what the file held before.", "quantifier": "every key pair, nickname, file and passphrase", "why_tests_cant": "Only unusual nicknames make writing raise after the file was opened.", "anchors": ["src/pymt/keypairs.py:RsaKeyPair.to_key_file", "src/pymt/keypairs.py:RsaKeyPair.nickname"]}
{"id": "C189", "title": "The nickname of a key pair is a string", "statement": "After any calls the nickname of a key pair that was made with the constructor is a str.", "quantifier": "every program of calls", "why_tests_cant": "The constructor's test suggests it; a test of the constructor does not see the setter.", "anchors": ["src/pymt/keypairs.py:RsaKeyPair.__init__", "src/pymt/keypairs.py:RsaKeyPair.nickname"]}
{"id": "C190", "title": "Time stamps can be read back", "statement": "from_timstamp_string(get_timestamp_string()) returns the current time, to the second.", "quantifier": "every time of call", "why_tests_cant": "The tests run with Django installed or not at all; the claim is about every installation.", "anchors": ["src/pymt/utils/utils.py:Utils.get_timestamp_string", "src/pymt/utils/utils.py:Utils.from_timstamp_string"]}
{"id": "C191", "title": "Random ids", "statement": "get_id_string returns 32 lower-case hexadecimal digits of a version 4 UUID; two calls return the same id exactly if their random bytes agree in the 122 bits that are not fixed.", "quantifier": "every choice of random bytes", "why_tests_cant": "2^128 choices.", "anchors": ["src/pymt/utils/utils.py:Utils.get_id_string", "src/pymt/utils/utils.py:Utils.get_id"]}
{"id": "C192", "title": "The helpers refuse arguments of wrong types", "statement": "hash_data, encrypt, decrypt, rsa_key_valid, file_exists and dir_exists raise TypeError on arguments of wrong types, and ValueError on unknown names of hash functions or kinds of keys, whatever the other arguments are.", "quantifier": "every argument", "why_tests_cant": "All combinations of arguments cannot be listed.", "anchors": ["src/pymt/utils/utils.py:Utils.hash_data", "src/pymt/utils/utils.py:Utils.sha256", "src/pymt/utils/utils.py:Utils.sha512", "src/pymt/utils/utils.py:Utils.encrypt", "src/pymt/utils/utils.py:Utils.decrypt", "src/pymt/utils/utils.py:Utils.rsa_key_valid", "src/pymt/utils/utils.py:Utils.file_exists", "src/pymt/utils/utils.py:Utils.dir_exists"]}
{"id": "C193", "title": "Hash objects and new keys", "statement": "hash_data with finalize=True is the hexadecimal form of the digest of the hash object that it returns with finalize=False. What generate_rsa_keypair returns is a valid private key and not a valid public key for rsa_key_valid.", "quantifier": "every data, every generated key", "why_tests_cant": "Data and keys are unbounded.", "anchors": ["src/pymt/utils/utils.py:Utils.hash_data", "src/pymt/utils/utils.py:Utils.generate_rsa_keypair", "src/pymt/utils/utils.py:Utils.rsa_key_valid"]}
{"id": "C194", "title": "Every call on a MerkleTools object", "statement": "After any calls, every call on a MerkleTools object (adding leaves of any type, making and resetting the tree, counts, leaves by any index, root, proofs, verification of proofs of any shape, comparison) answers or raises exactly what the list of added values and the point at which the tree was last made say.", "quantifier": "every program of calls, every argument, both modes", "why_tests_cant": "Programs and arguments are unbounded.", "anchors": ["src/pymt/merkletools.py:MerkleTools.__init__", "src/pymt/merkletools.py:MerkleTools.add_leaf", "src/pymt/merkletools.py:MerkleTools.make_tree", "src/pymt/merkletools.py:MerkleTools.get_proof_of_inclusion", "src/pymt/merkletools.py:MerkleTools.verify_proof_of_inclusion", "src/pymt/merkletools.py:MerkleTools.get_leaf", "src/pymt/merkletools.py:MerkleTools.get_merkle_root", "src/pymt/merkletools.py:MerkleTools.reset_tree", "src/pymt/merkletools.py:MerkleTools.__eq__"]}
{"id": "C195", "title": "The text of a MerkleTools object", "statement": "str() of a MerkleTools object is the list of the levels of its tree, root first, as Python would write them; two objects have the same text exactly if they have the same levels, or both have none for the same reason.", "quantifier": "every two programs of calls", "why_tests_cant": "Texts of all trees cannot be listed.", "anchors": ["src/pymt/merkletools.py:MerkleTools.__str__", "src/pymt/merkletools.py:MerkleTools.__repr__"]}
{"id": "C196", "title": "Results of MerkleTools can be given back to it", "statement": "What get_leaf and get_merkle_root of a made tree return can be given to verify_proof_of_inclusion together with the proof of that leaf, and it returns True, as in src/pymt/examples/merkletools_create_and_proof.py.", "quantifier": "every tree, every leaf", "why_tests_cant": "The tests convert the results to bytes first.", "anchors": ["src/pymt/merkletools.py:MerkleTools.verify_proof_of_inclusion", "src/pymt/merkletools.py:MerkleTools.get_leaf", "src/pymt/merkletools.py:MerkleTools.get_merkle_root", "src/pymt/examples/merkletools_create_and_proof.py"]}
{"id": "C197", "title": "MerkleTools' own proofs", "statement": "get_proof_of_inclusion of a leaf of a made tree of n leaves returns at most ceil(log2 n) elements, and verify_proof_of_inclusion accepts them for the bytes of the leaf and of the root.", "quantifier": "every program of calls, every leaf, every number of leaves", "why_tests_cant": "Trees are unbounded.", "anchors": ["src/pymt/merkletools.py:MerkleTools.get_proof_of_inclusion", "src/pymt/merkletools.py:MerkleTools.verify_proof_of_inclusion"]}
{"id": "C198", "title": "Leaves are bytes", "statement": "add_leaf of a MerkleTools object raises for every argument that is not bytes or bytearray.", "quantifier": "every argument, both modes", "why_tests_cant": "Arguments are unbounded.", "anchors": ["src/pymt/merkletools.py:MerkleTools.add_leaf"]}
{"id": "C199", "title": "Membership in the views of an EMPT", "statement": "After any calls and failures of the storages, `(k, v) in items()`, `v in values()` and `k in keys()` answer or raise what reading the keys one by one does, in the order in which they were added.", "quantifier": "every program of calls, every failure, every key, value and equality of values", "why_tests_cant": "Programs and failures are unbounded.", "anchors": ["src/pymt/empt.py:EMPT.__getitem__", "src/pymt/empt.py:EMPT.__contains__", "src/pymt/empt.py:EMPT.__iter__", "src/pymt/empt.py:EMPT.keys", "src/pymt/empt.py:EMPT.values", "src/pymt/empt.py:EMPT.items"]}
{"id": "C200", "title": "build_trie rebuilds the trie", "statement": "build_trie over storages as the documentation asks for (keys() of the trie storage is a list) leaves an EMPT with the same content.", "quantifier": "every EMPT with a root that is a hash", "why_tests_cant": "The tests use dicts as storages.", "anchors": ["src/pymt/empt.py:EMPT.build_trie", "src/pymt/empt.py:EMPT.__init__"]}
{"id": "C201", "title": "EMPT objects over the same storages", "statement": "Take any number of EMPT objects over the same two storages, hashing their keys or not, objects opened on the root of another one, calls of every kind on any of them with any failures of the storages and any recursion limits, and changes of the data storage by somebody else. Every call answers or raises what follows from the references its own object holds and from the common data; root_hash() of each object is that of its own references; calls on one object change the references of no other.", "quantifier": "every number of objects, modes, programs of calls, failures and outside changes", "why_tests_cant": "The tests never open a second object on an old root and go on with both.", "anchors": ["src/pymt/empt.py:EMPT.__init__", "src/pymt/empt.py:EMPT.update", "src/pymt/empt.py:EMPT.get", "src/pymt/empt.py:EMPT.delete", "src/pymt/empt.py:EMPT.__contains__", "src/pymt/empt.py:EMPT.root", "src/pymt/empt.py:EMPT.root_hash", "src/pymt/empt.py:EMPT.get_reference"]}
{"id": "C202", "title": "An EMPT opened on an old root is a snapshot", "statement": "An EMPT opened on the root of another one and then only read keeps root_hash(), the answers of get_reference and of `in`, whatever happens to the other objects and to the data storage; a value that get returns is in the data storage and, with its key, has the digest its reference was made of.", "quantifier": "every program before and after opening, every key", "why_tests_cant": "Programs are unbounded; needs changes by others between opening and reading.", "anchors": ["src/pymt/empt.py:EMPT.__init__", "src/pymt/empt.py:EMPT.get", "src/pymt/empt.py:EMPT.get_reference", "src/pymt/empt.py:EMPT.__contains__", "src/pymt/empt.py:EMPT.root_hash"]}
{"id": "C203", "title": "The shipped example of changing an EMPT", "statement": "examples/empt_create_and_change.py runs as its comments say: the trie opened on the old root returns the old data, the deleted key raises KeyError.", "quantifier": "every hash function with 32-byte digests that has no collision on the nodes", "why_tests_cant": "One hash function only.", "anchors": ["src/pymt/examples/empt_create_and_change.py"]}
{"id": "C204", "title": "Proofs of EMPT objects over the same storages", "statement": "In the situation of C201: a key the object holds a reference for gets an inclusion proof that every trie with this root accepts; for other keys get_proof_of_inclusion raises what C111 says; get_proof_of_exclusion raises ValueError if the object is empty and PoeError if `in` answers True, otherwise makes a proof that is accepted, except if the key leaves the common beginning of all keys or ends at a leaf with its own nibbles.", "quantifier": "every fleet of objects, program and key, unless a digest of a key and value begins with six zero bytes", "why_tests_cant": "Programs are unbounded.", "anchors": ["src/pymt/empt.py:EMPT.get_proof_of_inclusion", "src/pymt/empt.py:EMPT.get_proof_of_exclusion", "src/pymt/empt.py:EMPT.verify_proof_of_inclusion", "src/pymt/empt.py:EMPT.verify_proof_of_exclusion"]}
{"id": "C205", "title": "The shipped example of an inclusion proof", "statement": "examples/empt_proof_of_inclusion.py makes a proof for b'dog' and accepts it.", "quantifier": "every hash function with 32-byte digests that has no collision on the nodes", "why_tests_cant": "One hash function only.", "anchors": ["src/pymt/examples/empt_proof_of_inclusion.py"]}
{"id": "C206", "title": "The shipped example of an exclusion proof", "statement": "examples/empt_proof_of_exclusion.py makes a proof that b'wolf' is not in the trie and accepts it.", "quantifier": "every hash function with 32-byte digests that has no collision on the nodes", "why_tests_cant": "The example only prints the verdict.", "anchors": ["src/pymt/examples/empt_proof_of_exclusion.py"]}
{"id": "C207", "title": "The shipped examples with key pairs", "statement": "examples/sign_and_verify.py finds its signature valid with the key pair that made it and with another one; the message that examples/encrypted_com.py decrypts is the one it encrypted; examples/example_rsa_tools.py finds its signature valid and gets its data back.", "quantifier": "every choice of keys, nicknames, session keys, seeds and nonces; every correct implementation of the primitives", "why_tests_cant": "One run has one choice of keys.", "anchors": ["src/pymt/examples/sign_and_verify.py", "src/pymt/examples/encrypted_com.py", "src/pymt/examples/example_rsa_tools.py", "src/pymt/keypairs.py:RsaKeyPair.sign", "src/pymt/keypairs.py:RsaKeyPair.signature_valid", "src/pymt/keypairs.py:RsaKeyPair.encrypt", "src/pymt/keypairs.py:RsaKeyPair.decrypt"]}
{"id": "C208", "title": "The shipped example of a Merkle tree", "statement": "examples/mt_create_and_proof.py builds a tree of five values, reads one, makes a proof for b'world' and finds it valid.", "quantifier": "every hash function with 32-byte digests that has no collision on the strings hashed", "why_tests_cant": "The example does not print the verdict.", "anchors": ["src/pymt/examples/mt_create_and_proof.py", "src/pymt/mt.py:MerkleTree.get_proof_of_inclusion", "src/pymt/mt.py:MerkleTree.verify_proof_of_inclusion"]}
{"id": "C209", "title": "An interrupted build_trie", "statement": "build_trie on an empty trie, interrupted by a failing access to either storage at any point, leaves the data as it is and a trie that holds exactly the references of the first keys: those read and are contained, the others are not contained. Calling update for every key with the data stored for it completes the trie; its root is that of a build without failures.", "quantifier": "every data of bytes, mode, place of the failure; keys that are no extension of a key already done, or secure mode", "why_tests_cant": "Failures at every access.", "anchors": ["src/pymt/empt.py:EMPT.build_trie", "src/pymt/empt.py:EMPT.update", "src/pymt/empt.py:EMPT.get", "src/pymt/empt.py:EMPT.__contains__"]}
{"id": "C210", "title": "build_trie again after a failure", "statement": "After a build_trie that failed because of a storage, calling build_trie again completes the trie.", "quantifier": "every data and place of the failure", "why_tests_cant": "Needs a failing storage.", "anchors": ["src/pymt/empt.py:EMPT.build_trie"]}
{"id": "C211", "title": "A SparseEMPT received from anyone", "statement": "A SparseEMPT decoded from bytes of any origin, with the root and the mode of an EMPT, answers get_reference, contains and proof verification as that EMPT's trie does, or raises. A reference it returns is the one stored under the key returned with it; contains answers whether the key is held.", "quantifier": "every session of the EMPT, every byte string, key, recursion limit and proof; no collision on the strings hashed", "why_tests_cant": "The sender may put any nodes into the bytes.", "anchors": ["src/pymt/empt.py:SparseEMPT.decode_rlp", "src/pymt/empt.py:SparseEMPT.get_reference", "src/pymt/empt.py:SparseEMPT.contains", "src/pymt/empt.py:EMPT.update"]}
{"id": "C212", "title": "A copy that follows the owner", "statement": "When the calls of update and delete that an EMPT acknowledged are repeated, in order, on a SparseEMPT with its earlier root and mode, then either all of them succeed and the SparseEMPT has the EMPT's new root and answers as the EMPT's trie or raises, or the first call that does not succeed raises KeyError.", "quantifier": "every session of the EMPT, every journal of updates and deletes, every SparseEMPT with nodes under their digests", "why_tests_cant": "All ways in which nodes can be missing from the copy.", "anchors": ["src/pymt/empt.py:SparseEMPT.update", "src/pymt/empt.py:SparseEMPT.delete", "src/pymt/empt.py:SparseEMPT.decode_rlp", "src/pymt/empt.py:EMPT.update", "src/pymt/empt.py:EMPT.delete"]}
{"id": "C213", "title": "Reading from a root and a proof", "statement": "A SparseEMPT made of a known root and the nodes of a proof of inclusion for a key returns the key's reference from get_reference. Made of the nodes of any proof it answers as the owner's trie or raises.", "quantifier": "every session of the EMPT, every key, every proof, every recursion limit above the frames of the key", "why_tests_cant": "Forged proofs of any shape.", "anchors": ["src/pymt/empt.py:SparseEMPT.__init__", "src/pymt/empt.py:SparseEMPT.get_reference", "src/pymt/empt.py:EMPT.get_proof_of_inclusion"]}
{"id": "C214", "title": "Loops that change the EMPT they are over", "statement": "A loop over an EMPT or its keys(), items() or values() goes through the keys in the order of insertion; items() and values() show what get returns or raises at that moment; calls in the body do what they do outside. When the number of keys is another one than at the beginning, the next turn raises RuntimeError; as long as the keys are the same, every key gets one turn.", "quantifier": "every calls before, every body, every way to leave it, failing storages; data storage a dict. If keys are replaced by as many others, what follows is left open, as Python does", "why_tests_cant": "Every body and every moment.", "anchors": ["src/pymt/empt.py:EMPT.__iter__", "src/pymt/empt.py:EMPT.__getitem__", "src/pymt/empt.py:EMPT.update", "src/pymt/empt.py:EMPT.delete"]}
{"id": "C215", "title": "Setting values in a loop", "statement": "A loop over an EMPT, its keys(), items() or values() that sets the key it is at comes to its end; it shows every key once, in order of insertion, with the value from before the loop; afterwards items() gives the new values in the old order.", "quantifier": "every EMPT whose items() can be read, every function that gives the new values", "why_tests_cant": "Every content and every function.", "anchors": ["src/pymt/empt.py:EMPT.__iter__", "src/pymt/empt.py:EMPT.update"]}
{"id": "C216", "title": "Deleting keys in a loop", "statement": "A loop over an EMPT that deletes the key it is at deletes all keys.", "quantifier": "every EMPT whose items() can be read", "why_tests_cant": "Every content.", "anchors": ["src/pymt/empt.py:EMPT.__iter__", "src/pymt/empt.py:EMPT.delete"]}
{"id": "C217", "title": "Set operations on the keys of an EMPT", "statement": "<=, <, >=, >, ==, isdisjoint, &, |, -, and ^ of keys() of an EMPT and a set of bytes, or keys() of another EMPT, compare the numbers of keys and answer by `in` of the other side for the keys that one side lists. Where no call before failed because of a storage or the stack and `in` has no false positive among those keys (always in secure mode), they are the operations on the sets of keys. An element that is not bytes makes &, set - keys() and ^ raise TypeError.", "quantifier": "every calls before on each EMPT, also ones that failed, both modes on either side, every set; enough stack for the keys asked for", "why_tests_cant": "Every content of both sides, and every way it came about.", "anchors": ["src/pymt/empt.py:EMPT.__iter__", "src/pymt/empt.py:EMPT.__contains__", "src/pymt/empt.py:EMPT.__len__"]}
{"id": "C218", "title": "Equal keys mean the same keys", "statement": "If keys() of two EMPTs compare equal, the EMPTs have the same keys; & of keys() and a set contains only keys of the EMPT.", "quantifier": "every two EMPTs in which no call failed", "why_tests_cant": "Fails only where a key is a prefix of another one in plain mode.", "anchors": ["src/pymt/empt.py:EMPT.__iter__", "src/pymt/empt.py:EMPT.__contains__"]}
{"id": "C219", "title": "Calls of several threads on one MPT", "statement": "When several threads call update, delete, get, contains, get_proof_of_inclusion, root and root_hash of one MPT, each call looks at the trie a fixed number of times and then answers by the contents at the moment of one of these looks; an update or a delete replaces the contents by those it had taken, changed. The answers, the errors, and the root at the end are those of such steps, and no call notices the nodes another one writes.", "quantifier": "every number of calls, every order of their single reads and writes of the root and of the storage, calls that stop half way, every contents, both modes, every stack limit", "why_tests_cant": "The interleavings of a few calls cannot be enumerated, let alone provoked.", "anchors": ["src/pymt/mpt.py:MPT.update", "src/pymt/mpt.py:MPT.delete", "src/pymt/mpt.py:MPT.get", "src/pymt/mpt.py:MPT.contains", "src/pymt/mpt.py:MPT.get_proof_of_inclusion", "src/pymt/mpt.py:MPT.root", "src/pymt/mpt.py:MPT.root_hash"]}
{"id": "C220", "title": "A read answers by moments of the call", "statement": "The answer of get, contains, root, root_hash and get_proof_of_inclusion made while other threads change the MPT is the one of the trie as it was at a moment between the begin and the end of the call, except that a trie seen empty at one moment and not at another may make it raise TypeError or KeyError, and that proofs and root_hash may join two moments. If the root stays the same during the call, the answer is the one of a call that is alone.", "quantifier": "every number of calls, every order of their single reads and writes of the root and of the storage, calls that stop half way, every contents, both modes, every stack limit", "why_tests_cant": "Every position of every other call's steps relative to those of the read.", "anchors": ["src/pymt/mpt.py:MPT.get", "src/pymt/mpt.py:MPT.contains", "src/pymt/mpt.py:MPT.get_proof_of_inclusion", "src/pymt/mpt.py:MPT.root", "src/pymt/mpt.py:MPT.root_hash"]}
{"id": "C221", "title": "One thread writes, others read", "statement": "If every update and delete begins after the earlier ones ended, these answer as in a program with one thread, whatever other threads read, and the root at the end is that of the resulting contents. Reads answer by what the writes that had ended at moments of the call had stored.", "quantifier": "every number of calls, every order of their single reads and writes of the root and of the storage, calls that stop half way, every contents, both modes, every stack limit; updates and deletes one after the other", "why_tests_cant": "Every schedule of the readers.", "anchors": ["src/pymt/mpt.py:MPT.update", "src/pymt/mpt.py:MPT.delete", "src/pymt/mpt.py:MPT.get", "src/pymt/mpt.py:MPT.contains", "src/pymt/mpt.py:MPT.get_proof_of_inclusion", "src/pymt/mpt.py:MPT.root", "src/pymt/mpt.py:MPT.root_hash"]}
{"id": "C222", "title": "A call that is not interrupted", "statement": "A call whose steps are not interrupted by other calls answers and changes the MPT as a call in a program with one thread, also when other calls have begun and not ended; it does not change how far these are.", "quantifier": "every state of the MPT and of the other calls, also ones that no calls lead to; at least one frame of stack", "why_tests_cant": "Every way other calls can be under way.", "anchors": ["src/pymt/mpt.py:MPT.update", "src/pymt/mpt.py:MPT.delete", "src/pymt/mpt.py:MPT.get", "src/pymt/mpt.py:MPT.contains", "src/pymt/mpt.py:MPT.get_proof_of_inclusion", "src/pymt/mpt.py:MPT.root", "src/pymt/mpt.py:MPT.root_hash"]}
{"id": "C223", "title": "No call waits for another one", "statement": "Every call on an MPT ends after at most 3*n+5 reads and writes of the root or the storage of its own, n the frames of stack it has, whatever other threads do meanwhile.", "quantifier": "every state, every schedule", "why_tests_cant": "A starving schedule is one of infinitely many.", "anchors": ["src/pymt/mpt.py:MPT.update", "src/pymt/mpt.py:MPT.delete", "src/pymt/mpt.py:MPT.get", "src/pymt/mpt.py:MPT.contains", "src/pymt/mpt.py:MPT.get_proof_of_inclusion", "src/pymt/mpt.py:MPT.root", "src/pymt/mpt.py:MPT.root_hash"]}
{"id": "C224", "title": "No update is lost", "statement": "If two threads update an MPT and both calls return, both keys have their values afterwards.", "quantifier": "every contents, keys, values, schedule", "why_tests_cant": "Fails only where both calls read the root before either replaces it.", "anchors": ["src/pymt/mpt.py:MPT.update"]}
{"id": "C225", "title": "A read of a changing trie has an answer of some moment", "statement": "get and contains answer as they would at one moment of the call; in particular they raise only what they raise in a program with one thread.", "quantifier": "every contents, keys, schedule", "why_tests_cant": "Fails only where the trie becomes empty, or gets its first key, between two reads of the root.", "anchors": ["src/pymt/mpt.py:MPT.get", "src/pymt/mpt.py:MPT.contains"]}
{"id": "C226", "title": "A proof made while the trie changes is of one trie", "statement": "A proof that get_proof_of_inclusion returns is accepted by an MPT that has the root stated in the proof.", "quantifier": "every contents, keys, schedule", "why_tests_cant": "Fails only where the root is replaced after the walk and before the proof object is made.", "anchors": ["src/pymt/mpt.py:MPT.get_proof_of_inclusion", "src/pymt/mpt.py:MPT.verify_proof_of_inclusion"]}
{"id": "C227", "title": "Exactly what decrypt raises", "statement": "decrypt raises in exactly these cases, tried in this order: NotImplementedError for an authentication-only pair; UnicodeDecodeError if the data is not UTF-8, JSONDecodeError if it is not JSON, TypeError if it is not an object; for the first of enc_session_key, nonce, tag, ciphertext, signature that is missing KeyError, that is no string TypeError, that is not hexadecimal ValueError; NotImplementedError for an encryption-only pair; what importing the sender's key raises; ValueError if the signature does not verify; AttributeError for a pair without key; what decrypting the session key or the text raises.", "quantifier": "all key pairs, all bytes, all sender keys, every behaviour of the cryptographic primitives", "why_tests_cant": "Every malformed message and every first error among several.", "anchors": ["src/pymt/keypairs.py:RsaKeyPair.decrypt", "src/pymt/keypairs.py:RsaKeyPair.signature_valid"]}
{"id": "C228", "title": "A malformed message is refused with ValueError", "statement": "decrypt raises ValueError (or a subclass) for data that is not an encrypted message.", "quantifier": "all bytes", "why_tests_cant": "Tests try wrong signatures, not wrong shapes.", "anchors": ["src/pymt/keypairs.py:RsaKeyPair.decrypt"]}
{"id": "C229", "title": "Exactly what loading a key raises", "statement": "from_key_string raises in exactly these cases, in this order: JSONDecodeError if the text is not JSON, TypeError if it is not an object, KeyError without nickname, KeyError without private_key, TypeError if that is no string, ValueError if it is not hexadecimal, otherwise what importing the key raises. from_key_file raises FileNotFoundError if there is no such file, otherwise as from_key_string on its text.", "quantifier": "all texts, passphrases, files, every behaviour of the cryptographic primitives", "why_tests_cant": "Every malformed text.", "anchors": ["src/pymt/keypairs.py:RsaKeyPair.from_key_string", "src/pymt/keypairs.py:RsaKeyPair.from_key_file"]}
{"id": "C230", "title": "Calls of several threads on one EMPT", "statement": "When several threads call update, delete, get, get_reference, contains, get_proof_of_inclusion, root and root_hash of one EMPT, get takes the data as it was at a moment of the call, and compares it with a reference of a later moment of the call: KeyError without data; otherwise what looking up the reference in the trie raises, as C220 says; otherwise the data if the reference is the one of the data, and InvalidReferenceError if not. The other reads answer by the trie as C220 says, at moments of the call.", "quantifier": "every number of calls, every order of their single steps (reads and writes of the data storage, of the root and of the nodes), calls that stop half way, every contents, both modes, every stack limit", "why_tests_cant": "The interleavings of a few calls cannot be enumerated, let alone provoked.", "anchors": ["src/pymt/empt.py:EMPT.get", "src/pymt/empt.py:EMPT.get_reference", "src/pymt/empt.py:EMPT.contains", "src/pymt/empt.py:EMPT.get_proof_of_inclusion", "src/pymt/empt.py:EMPT.root", "src/pymt/empt.py:EMPT.root_hash"]}
{"id": "C231", "title": "One thread writes an EMPT, others read", "statement": "If every update and delete of an EMPT begins after the earlier ones ended, these answer as in a program with one thread, whatever other threads read, and the EMPT at the end is the one they leave without other threads.", "quantifier": "every number of calls, every order of their single steps (reads and writes of the data storage, of the root and of the nodes), calls that stop half way, every contents, both modes, every stack limit; updates and deletes one after the other; also where digests collide", "why_tests_cant": "Every schedule of the readers.", "anchors": ["src/pymt/empt.py:EMPT.update", "src/pymt/empt.py:EMPT.delete", "src/pymt/empt.py:EMPT.get", "src/pymt/empt.py:EMPT.get_reference", "src/pymt/empt.py:EMPT.contains", "src/pymt/empt.py:EMPT.get_proof_of_inclusion", "src/pymt/empt.py:EMPT.root", "src/pymt/empt.py:EMPT.root_hash"]}
{"id": "C232", "title": "A value that is not being changed is read", "statement": "If updates and deletes come one after the other, then from the end of update(k, v) to the next write of k every get(k) gives v, get_reference(k) its reference and contains(k) True, whatever the writer does to other keys during the call, or the call raises RecursionError for want of stack. From the end of delete(k) to the next write of k get(k) raises KeyError.", "quantifier": "every number of calls, every order of their single steps (reads and writes of the data storage, of the root and of the nodes), calls that stop half way, every contents, both modes, every stack limit; updates and deletes one after the other", "why_tests_cant": "Every moment of every write of other keys at which a read can come.", "anchors": ["src/pymt/empt.py:EMPT.update", "src/pymt/empt.py:EMPT.delete", "src/pymt/empt.py:EMPT.get", "src/pymt/empt.py:EMPT.get_reference", "src/pymt/empt.py:EMPT.contains"]}
{"id": "C233", "title": "Of two updates of one key one remains", "statement": "If two threads update one key of an EMPT and both calls return, get gives one of the two values.", "quantifier": "every contents, keys, values, schedule", "why_tests_cant": "Fails only where both calls have changed the trie before either stores its data.", "anchors": ["src/pymt/empt.py:EMPT.update", "src/pymt/empt.py:EMPT.get"]}
{"id": "C234", "title": "A get beside an update gives the old or the new value", "statement": "A get of a key that another thread is updating, no other call being under way, returns the old or the new value.", "quantifier": "every contents, keys, values, schedule", "why_tests_cant": "Fails only where the update comes between two reads of the get.", "anchors": ["src/pymt/empt.py:EMPT.update", "src/pymt/empt.py:EMPT.get"]}
{"id": "C235", "title": "No call on an EMPT waits for another one", "statement": "Every call on an EMPT ends after at most 6*n+14 steps of its own, n the frames of stack it has, whatever other threads do meanwhile.", "quantifier": "every calls before, every schedule", "why_tests_cant": "A starving schedule is one of infinitely many.", "anchors": ["src/pymt/empt.py:EMPT.update", "src/pymt/empt.py:EMPT.delete", "src/pymt/empt.py:EMPT.get", "src/pymt/empt.py:EMPT.get_reference", "src/pymt/empt.py:EMPT.contains", "src/pymt/empt.py:EMPT.get_proof_of_inclusion", "src/pymt/empt.py:EMPT.root", "src/pymt/empt.py:EMPT.root_hash"]}
{"id": "C236", "title": "A call on an EMPT that is not interrupted", "statement": "A call whose steps are not interrupted by other calls answers and changes the EMPT as a call in a program with one thread, also when other calls have begun and not ended.", "quantifier": "every calls before, also ones under way; at least one frame of stack", "why_tests_cant": "Every way other calls can be under way.", "anchors": ["src/pymt/empt.py:EMPT.update", "src/pymt/empt.py:EMPT.delete", "src/pymt/empt.py:EMPT.get", "src/pymt/empt.py:EMPT.get_reference", "src/pymt/empt.py:EMPT.contains", "src/pymt/empt.py:EMPT.get_proof_of_inclusion", "src/pymt/empt.py:EMPT.root", "src/pymt/empt.py:EMPT.root_hash"]}
{"id": "C237", "title": "Which values an EMPT takes", "statement": "update of an EMPT with a bytearray raises TypeError and with an object that lacks encode or decode NotImplementedError, and changes nothing. With any other value it is update of its trie with the one RLP text of the reference to the value, and if that returns the value is stored, otherwise it is not. SparseEMPT takes bytes only: others raise TypeError, or AttributeError without encode. get of data that was found raises TypeError for a bytearray and AttributeError for an object without encode, and otherwise returns the data exactly if its digest agrees with the reference.", "quantifier": "every value, key, state, stack limit and fault of the node storage; data put into the storage by whomever", "why_tests_cant": "Every kind of value in every state.", "anchors": ["src/pymt/empt.py:EMPT.update", "src/pymt/empt.py:EMPT.get", "src/pymt/empt.py:SparseEMPT.update"]}
{"id": "C238", "title": "The text of a node without its data", "statement": "encode(include_data=False) of a node returns b if and only if b is the canonical RLP text of: the list of the hex-prefix path, for a leaf and an extension; the list of the sixteen references, for a branch; where the references are as in a full node.", "quantifier": "every node", "why_tests_cant": "Every node.", "anchors": ["src/pymt/utils/node.py:Node.encode"]}
{"id": "C239", "title": "No put of several threads is lost", "statement": "When several threads call put, get, get_count, make_tree, get_merkle_root, get_proof_of_inclusion and verify_proof_of_inclusion of one MerkleTree, its leaves are those of the values put, each once, in the order in which the puts took effect. put, get and get_count answer as a call made at one moment in a program with one thread.", "quantifier": "every number of calls, every order of their single steps (reads and writes of the leaves, the levels and the ready flag), calls that stop half way, every contents, both modes", "why_tests_cant": "The interleavings of a few calls cannot be enumerated.", "anchors": ["src/pymt/mt.py:MerkleTree.put", "src/pymt/mt.py:MerkleTree.get", "src/pymt/mt.py:MerkleTree.get_count", "src/pymt/merkletools.py:MerkleTools.add_leaf"]}
{"id": "C240", "title": "A call on a MerkleTree that is not interrupted", "statement": "A call whose steps are not interrupted by other calls answers and changes the MerkleTree as in a program with one thread, also when other calls have begun and not ended.", "quantifier": "every calls before, also ones under way; both modes", "why_tests_cant": "Every way other calls can be under way.", "anchors": ["src/pymt/mt.py:MerkleTree.put", "src/pymt/mt.py:MerkleTree.get", "src/pymt/mt.py:MerkleTree.get_count", "src/pymt/mt.py:MerkleTree.make_tree", "src/pymt/mt.py:MerkleTree.get_merkle_root", "src/pymt/mt.py:MerkleTree.get_proof_of_inclusion", "src/pymt/mt.py:MerkleTree.verify_proof_of_inclusion", "src/pymt/merkletools.py:MerkleTools.make_tree", "src/pymt/merkletools.py:MerkleTools._calculate_next_level"]}
{"id": "C241", "title": "Calls on a MerkleTree one after the other, beside get and get_count", "statement": "If every call but get and get_count begins after the earlier ones ended, these calls answer as in a program with one thread, and leave the tree they leave there.", "quantifier": "every number of calls, every order of their single steps (reads and writes of the leaves, the levels and the ready flag), calls that stop half way, every contents, both modes; calls other than get and get_count one after the other", "why_tests_cant": "Every schedule of the readers.", "anchors": ["src/pymt/mt.py:MerkleTree.put", "src/pymt/mt.py:MerkleTree.get", "src/pymt/mt.py:MerkleTree.get_count", "src/pymt/mt.py:MerkleTree.make_tree", "src/pymt/mt.py:MerkleTree.get_merkle_root", "src/pymt/mt.py:MerkleTree.get_proof_of_inclusion", "src/pymt/mt.py:MerkleTree.verify_proof_of_inclusion", "src/pymt/merkletools.py:MerkleTools.make_tree", "src/pymt/merkletools.py:MerkleTools._calculate_next_level"]}
{"id": "C242", "title": "The root of a tree to which values are put", "statement": "If make_tree, get_merkle_root, get_proof_of_inclusion and verify_proof_of_inclusion come one after the other while other threads put values, get_merkle_root after a make_tree, or as the first of these calls, answers the root over n leaves, n at least the number of values put before that call began: the first n, except that for odd n the last one may be a later leaf. If nothing was put since the call began it is the root over all values. Without values it raises ValueError.", "quantifier": "every number of calls, every order of their single steps (reads and writes of the leaves, the levels and the ready flag), calls that stop half way, every contents, both modes; calls that make the tree one after the other", "why_tests_cant": "Every moment at which a put can come.", "anchors": ["src/pymt/mt.py:MerkleTree.put", "src/pymt/mt.py:MerkleTree.get", "src/pymt/mt.py:MerkleTree.get_count", "src/pymt/mt.py:MerkleTree.make_tree", "src/pymt/mt.py:MerkleTree.get_merkle_root", "src/pymt/mt.py:MerkleTree.get_proof_of_inclusion", "src/pymt/mt.py:MerkleTree.verify_proof_of_inclusion", "src/pymt/merkletools.py:MerkleTools.make_tree", "src/pymt/merkletools.py:MerkleTools._calculate_next_level"]}
{"id": "C243", "title": "The root over a prefix", "statement": "If the calls that make the tree come one after the other while other threads put values, get_merkle_root answers the root over the first n values for some n.", "quantifier": "every number of calls, every order of their single steps (reads and writes of the leaves, the levels and the ready flag), calls that stop half way, every contents, both modes", "why_tests_cant": "Fails only where a put comes between two reads of the level.", "anchors": ["src/pymt/mt.py:MerkleTree.get_merkle_root", "src/pymt/mt.py:MerkleTree.put", "src/pymt/merkletools.py:MerkleTools._calculate_next_level"]}
{"id": "C244", "title": "The root asked for by several threads", "statement": "If several threads call get_merkle_root of one MerkleTree to which nothing is put meanwhile, each gets its root.", "quantifier": "every contents, number of calls, schedule", "why_tests_cant": "Fails only where both calls make the tree and one puts a level between two steps of the other.", "anchors": ["src/pymt/mt.py:MerkleTree.get_merkle_root", "src/pymt/merkletools.py:MerkleTools.make_tree", "src/pymt/merkletools.py:MerkleTools._calculate_next_level"]}
{"id": "C245", "title": "The root while the tree is made again", "statement": "get_merkle_root of a tree that was made and to which nothing was put since gives its root, also while another thread calls make_tree.", "quantifier": "every contents, number of calls, schedule", "why_tests_cant": "Fails only in a window of a few steps.", "anchors": ["src/pymt/mt.py:MerkleTree.get_merkle_root", "src/pymt/merkletools.py:MerkleTools.make_tree"]}
{"id": "C246", "title": "make_tree waits for no other thread", "statement": "make_tree ends after a number of steps of its own that depends on the number of leaves only, whatever other threads do.", "quantifier": "every schedule", "why_tests_cant": "A starving schedule is one of infinitely many.", "anchors": ["src/pymt/merkletools.py:MerkleTools.make_tree"]}
{"id": "C247", "title": "The tree after crossed calls", "statement": "After several threads have called get_merkle_root and all calls have ended, the proofs of inclusion the tree gives are accepted by it.", "quantifier": "every contents, number of calls, schedule", "why_tests_cant": "Fails only after certain schedules.", "anchors": ["src/pymt/mt.py:MerkleTree.get_merkle_root", "src/pymt/mt.py:MerkleTree.get_proof_of_inclusion", "src/pymt/mt.py:MerkleTree.verify_proof_of_inclusion"]}
{"id": "C248", "title": "The texts of bytes and proofs", "statement": "The repr of a proof, and the text of its dictionary that __hash__ hashes, are, character by character: the names of the fields, each followed by the repr of its bytes, and the tuple of the proof, with ', ' between elements and a comma after a single one. The repr of bytes stands in single quotes, or in double quotes if the bytes have a single and no double quote, and shows each byte as itself, as \\\\ with the character for the quote and the backslash, as \\\\t, \\\\n, \\\\r or as \\\\x with two lower case hexadecimal digits.", "quantifier": "every bytes, proof, field", "why_tests_cant": "All byte strings.", "anchors": ["src/pymt/proof.py:Proof.__repr__", "src/pymt/proof.py:Proof.__hash__"]}
{"id": "C249", "title": "The text of a time stamp", "statement": "The time stamp of a new proof is YYYY-MM-DD hh:mm:ss with all digits, and the microseconds in six digits after a point where there are some.", "quantifier": "every moment of the years up to 9999", "why_tests_cant": "All moments.", "anchors": ["src/pymt/proof.py:Proof.__init__"]}
{"id": "C250", "title": "make_tree ends while values are put", "statement": "If make_tree, get_merkle_root, get_proof_of_inclusion and verify_proof_of_inclusion of one MerkleTree come one after the other, every call ends after at most 16*log2(n)+15 steps of its own (log2 rounded up), n the number of values put by then, whatever values other threads put meanwhile.", "quantifier": "every number of calls, every order of their single steps, every contents, both modes; calls that make the tree one after the other", "why_tests_cant": "A starving schedule is one of infinitely many.", "anchors": ["src/pymt/mt.py:MerkleTree.put", "src/pymt/mt.py:MerkleTree.make_tree", "src/pymt/mt.py:MerkleTree.get_merkle_root", "src/pymt/mt.py:MerkleTree.get_proof_of_inclusion", "src/pymt/mt.py:MerkleTree.verify_proof_of_inclusion", "src/pymt/merkletools.py:MerkleTools.make_tree", "src/pymt/merkletools.py:MerkleTools._calculate_next_level"]}
{"id": "C251", "title": "Proofs of exclusion made while other threads write", "statement": "A proof of exclusion that an MPT makes while other threads call update and delete has the nodes, key and time of the proof that the call makes on one trie of the time of the call, and a root that root_hash may answer during that time. An exception is one that the call raises on such a trie, or the trie was emptied meanwhile and it is TypeError (or, where there is no stack left, RecursionError). While the root does not change the answer is that of the call on a trie of that time.", "quantifier": "every number of calls, every order of their single steps (reads and writes of the root and the storage), calls that stop half way, every contents, both modes, every recursion limit; no hash collision among the keys and nodes", "why_tests_cant": "Schedules.", "anchors": ["src/pymt/mpt.py:MPT.get_proof_of_exclusion", "src/pymt/mpt.py:MPT._get_proof_of_exclusion", "src/pymt/mpt.py:MPT.contains", "src/pymt/mpt.py:MPT.root_hash"]}
{"id": "C252", "title": "Proofs checked while other threads write", "statement": "While the root does not change, verify_proof_of_inclusion and verify_proof_of_exclusion answer as in a program with one thread. Whatever other threads do meanwhile, if verify_proof_of_inclusion answers True, then some trie of the time of the call has a key that is the key of the proof or begins with it. The hash of the first node of an accepted proof, and the root of an accepted proof of inclusion, are values that root_hash may answer meanwhile.", "quantifier": "every number of calls, every order of their single steps (reads and writes of the root and the storage), calls that stop half way, every contents, both modes, every recursion limit, every proof; no hash collision among the keys, the nodes and the elements of the proof", "why_tests_cant": "Schedules and forged proofs.", "anchors": ["src/pymt/mpt.py:MPT.verify_proof_of_inclusion", "src/pymt/mpt.py:MPT.verify_proof_of_exclusion"]}
{"id": "C253", "title": "The root of a proof of exclusion made while other threads write", "statement": "The root of a proof of exclusion is the root of the trie that its nodes are of, also when other threads update the MPT meanwhile.", "quantifier": "every number of calls, every order of their single steps (reads and writes of the root and the storage), calls that stop half way, every contents, both modes, every recursion limit", "why_tests_cant": "Schedules.", "anchors": ["src/pymt/mpt.py:MPT.get_proof_of_exclusion", "src/pymt/mpt.py:MPT._get_proof_of_exclusion", "src/pymt/mpt.py:MPT.contains", "src/pymt/mpt.py:MPT.root_hash"]}
{"id": "C254", "title": "A proof accepted while other threads write", "statement": "verify_proof_of_inclusion answers True only if it answers True for the proof, called alone, on some trie of the time of the call.", "quantifier": "every number of calls, every order of their single steps (reads and writes of the root and the storage), calls that stop half way, every contents, both modes, every recursion limit, every proof", "why_tests_cant": "Schedules and forged proofs.", "anchors": ["src/pymt/mpt.py:MPT.verify_proof_of_inclusion"]}
{"id": "C255", "title": "Making and checking proofs does not disturb other threads", "statement": "get_proof_of_exclusion, verify_proof_of_inclusion and verify_proof_of_exclusion change neither the MPT nor what other calls under way answer. Uninterrupted they answer as in a program with one thread, whatever calls are under way. They answer after at most 4*n+8, 9 and 6 steps of their own (n the recursion limit), whatever the other threads do.", "quantifier": "every number of calls, every order of their single steps (reads and writes of the root and the storage), calls that stop half way, every contents, both modes, every recursion limit", "why_tests_cant": "Schedules.", "anchors": ["src/pymt/mpt.py:MPT.get_proof_of_exclusion", "src/pymt/mpt.py:MPT._get_proof_of_exclusion", "src/pymt/mpt.py:MPT.verify_proof_of_inclusion", "src/pymt/mpt.py:MPT.verify_proof_of_exclusion"]}
{"id": "C256", "title": "MPT objects on one storage used by several threads", "statement": "Several MPT objects are created over one dict, and threads call update, delete, get, contains, get_proof_of_inclusion, root and root_hash on them at the same time. The answers on each object, and its root, are those of the same schedule of the calls on this object alone with a dict of its own. Whatever the threads do with the other objects, no node of the object is lost or replaced.", "quantifier": "every number of objects in either mode, every number of calls on each, every order of their single steps (reads and writes of the roots and of the common dict), calls that stop half way; no hash collision among the keys of the object and among the stored nodes; the other objects are not restricted", "why_tests_cant": "Schedules and contents.", "anchors": ["src/pymt/mpt.py:MPT.__init__", "src/pymt/mpt.py:MPT.get", "src/pymt/mpt.py:MPT.contains", "src/pymt/mpt.py:MPT.update", "src/pymt/mpt.py:MPT.delete", "src/pymt/mpt.py:MPT.get_proof_of_inclusion", "src/pymt/mpt.py:MPT.root", "src/pymt/mpt.py:MPT.root_hash"]}
{"id": "C257", "title": "A thread with its own MPT on a common storage", "statement": "A thread that is the only one to use an MPT object gets from it the answers of a program with one thread and leaves the root it leaves there, also when other threads use other MPT objects over the same dict.", "quantifier": "every number of objects in either mode, every number of calls on each, every order of their single steps (reads and writes of the roots and of the common dict), calls that stop half way; no hash collision among the keys of the object and among the stored nodes; the other objects are not restricted", "why_tests_cant": "Schedules and contents.", "anchors": ["src/pymt/mpt.py:MPT.__init__", "src/pymt/mpt.py:MPT.get", "src/pymt/mpt.py:MPT.contains", "src/pymt/mpt.py:MPT.update", "src/pymt/mpt.py:MPT.delete", "src/pymt/mpt.py:MPT.get_proof_of_inclusion", "src/pymt/mpt.py:MPT.root", "src/pymt/mpt.py:MPT.root_hash"]}
{"id": "C258", "title": "MPT objects opened while threads use others", "statement": "While threads use MPT objects over one dict, a thread opens a further object MPT(storage, root=other.root()). From then on both objects have lives of their own: the answers on each and its root are those of a schedule of its own calls with a dict of its own, where the life of the opened object starts with what was done to the other one before the opening. Writes through one are never seen through the other, and no node of either is lost or replaced.", "quantifier": "every number of objects in either mode, made new or opened at any moment of the run on the root another object then has (also in the middle of calls on it), every number of calls on each, every order of their single steps, calls that stop half way; no hash collision among the keys of an object and among the stored nodes", "why_tests_cant": "Schedules and contents.", "anchors": ["src/pymt/mpt.py:MPT.__init__", "src/pymt/mpt.py:MPT.get", "src/pymt/mpt.py:MPT.contains", "src/pymt/mpt.py:MPT.update", "src/pymt/mpt.py:MPT.delete", "src/pymt/mpt.py:MPT.get_proof_of_inclusion", "src/pymt/mpt.py:MPT.root", "src/pymt/mpt.py:MPT.root_hash"]}
{"id": "C259", "title": "An opened MPT is a snapshot", "statement": "An object opened on the root of another MPT, through which nobody writes, keeps its root, and each of its calls that ends gives the answer that an object opened there in a program with one thread gives, whatever threads write and delete through the other objects over the same dict meanwhile.", "quantifier": "every number of objects in either mode, made new or opened at any moment of the run on the root another object then has (also in the middle of calls on it), every number of calls on each, every order of their single steps, calls that stop half way; no hash collision among the keys of an object and among the stored nodes", "why_tests_cant": "Schedules and contents.", "anchors": ["src/pymt/mpt.py:MPT.__init__", "src/pymt/mpt.py:MPT.get", "src/pymt/mpt.py:MPT.contains", "src/pymt/mpt.py:MPT.update", "src/pymt/mpt.py:MPT.delete", "src/pymt/mpt.py:MPT.get_proof_of_inclusion", "src/pymt/mpt.py:MPT.root", "src/pymt/mpt.py:MPT.root_hash"]}
{"id": "C260", "title": "Old roots stay readable", "statement": "A root that an MPT had at some moment can be opened over the same dict at any later moment. get, contains, get_proof_of_inclusion, root and root_hash on the object opened then answer as they would have answered at that moment, whatever threads did with objects over the dict in between.", "quantifier": "every number of objects in either mode, made new or opened at any moment of the run on the root another object then has (also in the middle of calls on it), every number of calls on each, every order of their single steps, calls that stop half way; no hash collision among the keys of an object and among the stored nodes", "why_tests_cant": "Schedules and contents.", "anchors": ["src/pymt/mpt.py:MPT.__init__", "src/pymt/mpt.py:MPT.get", "src/pymt/mpt.py:MPT.contains", "src/pymt/mpt.py:MPT.update", "src/pymt/mpt.py:MPT.delete", "src/pymt/mpt.py:MPT.get_proof_of_inclusion", "src/pymt/mpt.py:MPT.root", "src/pymt/mpt.py:MPT.root_hash"]}
{"id": "C261", "title": "Texts of key pairs, exactly", "statement": "str of a key pair is the name of its class followed by \"(nickname=\", the nickname and \")\"; repr also has \", public_key=\" and the text of the public key. str and repr of key pairs of different classes always differ, and str is the same for two key pairs exactly when their classes and the texts of their nicknames are.", "quantifier": "every key pair, with or without a private key", "why_tests_cant": "All keys and nicknames.", "anchors": ["src/pymt/keypairs.py:RsaKeyPair.__str__", "src/pymt/keypairs.py:RsaKeyPair.__repr__", "src/pymt/keypairs.py:RsaAuthKeyPair.__str__", "src/pymt/keypairs.py:RsaAuthKeyPair.__repr__", "src/pymt/keypairs.py:RsaEncKeyPair.__str__", "src/pymt/keypairs.py:RsaEncKeyPair.__repr__"]}
{"id": "C262", "title": "Copies of a trie made beside other threads", "statement": "While threads read and write the trie, get_sparse_trie returns a trie with the nodes stored at one moment of the call and the root of that or a later moment of it, so that each read of the copy answers as on the sparse trie of the later moment or raises KeyError. The only exception it raises is RuntimeError, and only if nodes were stored during the call. get_root_trie returns the root trie of a moment of the call. If the root does not change during a call, the copy is the one a program with one thread makes at a moment of the call, or RuntimeError; if no node is stored during it, there is no exception.", "quantifier": "every number of copies made and of calls of other threads on the same trie, every order of their single steps, calls that stop half way, both modes; no hash collision among the keys and among the stored nodes", "why_tests_cant": "Schedules and contents.", "anchors": ["src/pymt/empt.py:EMPT.get_sparse_trie", "src/pymt/empt.py:EMPT.get_root_trie"]}
{"id": "C263", "title": "A sparse trie is that of one moment (refuted)", "statement": "The sparse trie that get_sparse_trie returns while other threads write is the sparse trie of some moment of the call.", "quantifier": "every schedule; refuted: a put or remove that another thread makes between the copying of the nodes and the reading of the root, on every trie on which it makes a new root node, gives a sparse trie without its root node, on which every get raises KeyError", "why_tests_cant": "Depends on the schedule.", "anchors": ["src/pymt/empt.py:EMPT.get_sparse_trie"]}
{"id": "C264", "title": "get_sparse_trie does not fail because of other threads (refuted)", "statement": "get_sparse_trie returns a trie whatever other threads do during the call.", "quantifier": "every schedule; refuted: every put or remove by another thread that adds nodes to the storage, made after the copying has begun, makes it raise RuntimeError", "why_tests_cant": "Depends on the schedule.", "anchors": ["src/pymt/empt.py:EMPT.get_sparse_trie"]}
{"id": "C265", "title": "Copying a trie is harmless and ends", "statement": "get_sparse_trie and get_root_trie change neither the trie nor the answer of any call of another thread, at any point of either. A copy made without interruption is the one a program with one thread makes, whatever calls are under way. A copy ends after a number of its own steps bounded by the number of nodes stored.", "quantifier": "every number of copies and of calls of other threads on the same trie, every order of their single steps, both modes", "why_tests_cant": "Schedules and contents.", "anchors": ["src/pymt/empt.py:EMPT.get_sparse_trie", "src/pymt/empt.py:EMPT.get_root_trie"]}
{"id": "C266", "title": "Deletes and puts of a key balance under threads", "statement": "Whatever threads do at the same time, the deletes of a key that returned normally, plus one if the data storage has the key now, are never more than the updates of that key that returned normally: one update is deleted, popped or removed by at most one thread. A key that was put is in the data storage unless a delete of it was called. The value of a key in the data storage is one that an update of that key which has returned gave, and a value that get returns was given for that key by an update that had returned at a moment of the get.", "quantifier": "every number of calls of any number of threads on one EMPT in either mode, every order of their single steps, calls that stop half way, any number of writers", "why_tests_cant": "Schedules and contents.", "anchors": ["src/pymt/empt.py:EMPT.get", "src/pymt/empt.py:EMPT.update", "src/pymt/empt.py:EMPT.delete"]}
{"id": "C267", "title": "Iterating over an EMPT beside other threads", "statement": "Every key that an iterator over an EMPT gives was in the data storage at a moment at which the iterator was under way, put there by an update that had returned; the iterator gives no more keys than there were at a moment at which it was under way. If no key is added or removed meanwhile (values may change), it gives exactly the keys, in their order, ends, and raises nothing.", "quantifier": "every number of calls of any number of threads on one EMPT in either mode, every order of their single steps, calls that stop half way, any number of writers; any number of iterators; every order in which a dict with exchanged keys can go on", "why_tests_cant": "Schedules and contents.", "anchors": ["src/pymt/empt.py:EMPT.__iter__", "src/pymt/empt.py:EMPT.update", "src/pymt/empt.py:EMPT.delete"]}
{"id": "C268", "title": "Loops over an EMPT are not disturbed by other threads (refuted)", "statement": "A loop over the keys of an EMPT ends without an exception whatever other threads do.", "quantifier": "every schedule; refuted: after every change of the number of keys by other threads, in particular every update with a new key, the next step of the iterator raises RuntimeError", "why_tests_cant": "Depends on the schedule.", "anchors": ["src/pymt/empt.py:EMPT.__iter__", "src/pymt/empt.py:EMPT.update"]}
{"id": "C269", "title": "Iterating is harmless and ends", "statement": "Iterators over an EMPT change neither the object nor the answer of any call of another thread. An iterator has ended or raised, whatever other threads do, when next was called on it once more than there were keys when it was made. len gives the number of keys in the data storage at one moment; these are different and each was put by an update that returned.", "quantifier": "every number of calls of any number of threads on one EMPT in either mode, every order of their single steps, calls that stop half way, any number of writers; any number of iterators", "why_tests_cant": "Schedules and contents.", "anchors": ["src/pymt/empt.py:EMPT.__iter__", "src/pymt/empt.py:EMPT.__len__"]}
{"id": "C270", "title": "pop and setdefault of an EMPT beside other threads", "statement": "A value that pop or setdefault of an EMPT returns was given for that key by an update that has returned, or is the default given to pop. The pops of a key that returned a value other than their default, plus one if the data storage has the key now, are never more than the updates of that key that returned normally: no update is popped twice. Both end after a number of their own steps that depends only on the recursion limit, whatever other threads do. They do to the object only what calls of get, update and delete do. When no other thread has a turn meanwhile, they do what they do in a program with one thread.", "quantifier": "every number of calls of any number of threads on one EMPT in either mode, every order of their single steps, calls that stop half way, any number of writers", "why_tests_cant": "Schedules and contents.", "anchors": ["src/pymt/empt.py:EMPT.__getitem__", "src/pymt/empt.py:EMPT.__setitem__", "src/pymt/empt.py:EMPT.__delitem__", "src/pymt/empt.py:EMPT.get", "src/pymt/empt.py:EMPT.update", "src/pymt/empt.py:EMPT.delete"]}
{"id": "C271", "title": "pop of an EMPT is one step (refuted)", "statement": "A pop and an update of its key by two threads have the results of one of their two orders: either the update is after the pop and its value is in the EMPT, or the pop returns the value of the update.", "quantifier": "every schedule; refuted: the pop can return the value from before the update and remove that of the update, so that nobody ever gets it", "why_tests_cant": "Depends on the schedule.", "anchors": ["src/pymt/empt.py:EMPT.__getitem__", "src/pymt/empt.py:EMPT.__setitem__", "src/pymt/empt.py:EMPT.__delitem__", "src/pymt/empt.py:EMPT.get", "src/pymt/empt.py:EMPT.update", "src/pymt/empt.py:EMPT.delete"]}
{"id": "C272", "title": "Threads agree on the value set by setdefault (refuted)", "statement": "When two threads call setdefault for a key that the EMPT does not have, and no one else uses it, both get the same value.", "quantifier": "every schedule; refuted: each can get its own default", "why_tests_cant": "Depends on the schedule.", "anchors": ["src/pymt/empt.py:EMPT.__getitem__", "src/pymt/empt.py:EMPT.__setitem__", "src/pymt/empt.py:EMPT.__delitem__", "src/pymt/empt.py:EMPT.get", "src/pymt/empt.py:EMPT.update", "src/pymt/empt.py:EMPT.delete"]}
{"id": "C273", "title": "popitem of an EMPT beside other threads", "statement": "An item that popitem of an EMPT returns was put, with that key and value, by an update that has returned. The calls of popitem that returned a key, plus one if the data storage has the key now, are never more than the updates of that key that returned normally. It raises RuntimeError when the number of keys has changed between the making of its iterator and its first key, KeyError when there is no key then, both without doing anything to the object, and goes on as pop of the first key otherwise. popitem does to the object only what calls of get and delete do, ends after a number of its own steps that depends only on the recursion limit, whatever other threads do, and when no other thread has a turn meanwhile it does what it does in a program with one thread.", "quantifier": "every number of calls of any number of threads on one EMPT in either mode, every order of their single steps, calls that stop half way, any number of writers", "why_tests_cant": "Schedules and contents.", "anchors": ["src/pymt/empt.py:EMPT.__iter__", "src/pymt/empt.py:EMPT.__getitem__", "src/pymt/empt.py:EMPT.__delitem__", "src/pymt/empt.py:EMPT.get", "src/pymt/empt.py:EMPT.update", "src/pymt/empt.py:EMPT.delete"]}
{"id": "C274", "title": "popitem finds an item while there are keys (refuted)", "statement": "A call of popitem on an EMPT that has keys during the whole call returns an item.", "quantifier": "every schedule; refuted: RuntimeError when another thread adds a key between the making of the iterator and its first key, KeyError when another thread removes the key chosen", "why_tests_cant": "Depends on the schedule.", "anchors": ["src/pymt/empt.py:EMPT.__iter__", "src/pymt/empt.py:EMPT.__getitem__", "src/pymt/empt.py:EMPT.__delitem__", "src/pymt/empt.py:EMPT.get", "src/pymt/empt.py:EMPT.update", "src/pymt/empt.py:EMPT.delete"]}
{"id": "C275", "title": "clear of an EMPT beside other threads", "statement": "clear of an EMPT does to the object only what calls of get and delete do. The items it takes and those that popitem returns, key by key, plus one if the data storage has the key now, are never more than the updates of that key that returned normally. It ends only when a popitem raises: it returns None when that is KeyError, and otherwise raises what popitem raised. When no other thread has a turn meanwhile it does what it does in a program with one thread.", "quantifier": "every number of calls of any number of threads on one EMPT in either mode, every order of their single steps, calls that stop half way, any number of writers", "why_tests_cant": "Schedules and contents.", "anchors": ["src/pymt/empt.py:EMPT.__iter__", "src/pymt/empt.py:EMPT.__getitem__", "src/pymt/empt.py:EMPT.__delitem__", "src/pymt/empt.py:EMPT.get", "src/pymt/empt.py:EMPT.delete"]}
{"id": "C276", "title": "clear leaves no keys when others only remove (refuted)", "statement": "When a call of clear on an EMPT has returned, and during it other threads only deleted keys, the EMPT has no keys.", "quantifier": "every schedule; refuted from every state with a key: when another thread deletes the key that clear has chosen, clear takes the KeyError for the end, and returns None with all the other keys left", "why_tests_cant": "Depends on the schedule.", "anchors": ["src/pymt/empt.py:EMPT.__iter__", "src/pymt/empt.py:EMPT.__getitem__", "src/pymt/empt.py:EMPT.__delitem__", "src/pymt/empt.py:EMPT.get", "src/pymt/empt.py:EMPT.delete"]}
