{
 "claims": [
  {
   "property": "C01",
   "status": "proved",
   "theorems": [
    "C01_get_returns_last_write"
   ],
   "note": "All histories, including failed calls, secure or not; 32-byte hash without a collision among the hashed encodings."
  },
  {
   "property": "C02",
   "status": "partial",
   "theorems": [
    "C02_contains_exact_refuted"
   ],
   "note": "Refuted: the code violates this claim (a branch value is reported for keys that leave the branch through an empty slot). C54 states and proves what contains answers exactly."
  },
  {
   "property": "C03",
   "status": "proved",
   "theorems": [
    "C03_other_present_keys_keep_values",
    "C03_other_absent_keys_stay_absent"
   ],
   "note": "Two theorems: present keys keep their values, absent keys stay absent."
  },
  {
   "property": "C04",
   "status": "partial",
   "theorems": [
    "C04_get_absent_refuted"
   ],
   "note": "Refuted: the code violates this claim (keys dog and horse, get(b'd') returns the value of dog). C05 is the true part."
  },
  {
   "property": "C05",
   "status": "proved",
   "theorems": [
    "C05_get_absent_raises"
   ],
   "note": ""
  },
  {
   "property": "C06",
   "status": "proved",
   "theorems": [
    "C06_delete_present",
    "C06_delete_absent",
    "C06_delete_absent_unchanged"
   ],
   "note": ""
  },
  {
   "property": "C07",
   "status": "proved",
   "theorems": [
    "C07_root_depends_on_contents_only"
   ],
   "note": "root() differs between a fresh empty trie and an emptied one, so root() equality is claimed for non-empty mappings only."
  },
  {
   "property": "C08",
   "status": "proved",
   "theorems": [
    "C08_root_commits_to_contents"
   ],
   "note": ""
  },
  {
   "property": "C09",
   "status": "proved",
   "theorems": [
    "C09_add_then_delete_restores_root",
    "C09_no_keys_gives_empty_hash"
   ],
   "note": ""
  },
  {
   "property": "C10",
   "status": "proved",
   "theorems": [
    "C10_old_roots_stay_readable"
   ],
   "note": ""
  },
  {
   "property": "C11",
   "status": "proved",
   "theorems": [
    "C11_failed_call_changes_nothing"
   ],
   "note": ""
  },
  {
   "property": "C12",
   "status": "proved",
   "theorems": [
    "C12_storage_content_addressed",
    "C12_storage_append_only"
   ],
   "note": ""
  },
  {
   "property": "C13",
   "status": "proved",
   "theorems": [
    "C13_secure_is_plain_on_hashed_keys",
    "C13_secure_reads",
    "C13_secure_absent_get_raises"
   ],
   "note": ""
  },
  {
   "property": "C14",
   "status": "partial",
   "theorems": [
    "C14_empty_values_refuted",
    "C14_empty_values_secure"
   ],
   "note": "Refuted in plain mode: a put that splits the leaf of a key with an empty value loses that key. C14_empty_values_secure proves the claim for secure mode. All other MPT properties allow empty values in secure mode and require non-empty ones in plain mode (EMPT never stores empty node values). C182 says exactly what is lost in plain mode."
  },
  {
   "property": "C15",
   "status": "proved",
   "theorems": [
    "C15_inclusion_proof_accepted"
   ],
   "note": "Any trie object with the same root accepts it (e.g. RootEMPT or a light client); no collision hypothesis needed because the proof carries the honest nodes."
  },
  {
   "property": "C16",
   "status": "partial",
   "theorems": [
    "C16_small_trie_inclusion_refuted"
   ],
   "note": "Refuted: the code violates this claim (a one-key trie with a short leaf: the root reference is the node itself, the verifier compares it with its hash). C15 is the true part."
  },
  {
   "property": "C17",
   "status": "proved",
   "theorems": [
    "C17_accepted_inclusion_means_prefix_present"
   ],
   "note": "Any proof object, honest or forged, against any trie object that has the root; no collision among proof nodes and trie nodes."
  },
  {
   "property": "C18",
   "status": "partial",
   "theorems": [
    "C18_accepted_inclusion_exact_refuted"
   ],
   "note": "Refuted: the code violates this claim (keys dog/horse, target d). C17 and C56 are the true parts."
  },
  {
   "property": "C19",
   "status": "proved",
   "theorems": [
    "C19_accepted_proof_names_the_root",
    "C19_stale_proof_rejected"
   ],
   "note": "Two theorems: an accepted proof names the root hash and starts with its preimage; a generated proof is answered False at any other non-empty root."
  },
  {
   "property": "C20",
   "status": "partial",
   "theorems": [
    "C20_exclusion_proof_accepted_refuted",
    "C20_exclusion_proof_inline_refuted"
   ],
   "note": "Refuted: the code violates this claim (absent key diverging in a root extension: refused; diverging in an inline extension: PoeError). C21 is the true part."
  },
  {
   "property": "C21",
   "status": "proved",
   "theorems": [
    "C21_exclusion_proof_accepted"
   ],
   "note": "For values of 32 bytes or more, keys of one length and a target sharing the common prefix, in both modes."
  },
  {
   "property": "C22",
   "status": "partial",
   "theorems": [
    "C22_accepted_exclusion_means_absent_refuted",
    "C22_every_present_key_deniable_refuted"
   ],
   "note": "Refuted: the code violates this claim: for every trie with two keys and long values every present key has an accepted exclusion proof."
  },
  {
   "property": "C23",
   "status": "proved",
   "theorems": [
    "C23_inclusion_type_checked",
    "C23_exclusion_type_checked",
    "C23_inclusion_proof_fields",
    "C23_exclusion_proof_fields"
   ],
   "note": "Type checks on all proof objects; fields of generated proofs."
  },
  {
   "property": "C24",
   "status": "proved",
   "theorems": [
    "C24_encode_decode",
    "C24_encode_succeeds"
   ],
   "note": "The copy has the same storage, root and mode, and all later histories of calls, with faults, have the same results on both. Encoding succeeds whenever root() is not None and the storage is below 2^63 bytes."
  },
  {
   "property": "C25",
   "status": "partial",
   "theorems": [
    "C25_every_trie_encodable_refuted"
   ],
   "note": "Refuted: the code violates this claim (after the last key is deleted root() is None and rlp.encode raises TypeError). C24 is the true part."
  },
  {
   "property": "C26",
   "status": "proved",
   "theorems": [
    "C26_decoded_reads_cannot_be_forged"
   ],
   "note": "All byte strings; secure mode, or keys not properly extended by a present key (get is not exact on the latter, see C04)."
  },
  {
   "property": "C27",
   "status": "proved",
   "theorems": [
    "C27_node_round_trip",
    "C27_node_encoding_injective",
    "C27_reference_faithful",
    "C27_references_are_valid"
   ],
   "note": "For all valid nodes: round trip, injectivity, and the reference identifies the node (inline or hashed, no collision)."
  },
  {
   "property": "C28",
   "status": "proved",
   "theorems": [
    "C28_path_operations"
   ],
   "note": "All operations for all paths, any offset."
  },
  {
   "property": "C29",
   "status": "proved",
   "theorems": [
    "C29_hex_prefix_round_trip",
    "C29_hex_prefix_injective"
   ],
   "note": "Round trip for all paths; injective on nibbles and type."
  },
  {
   "property": "C30",
   "status": "proved",
   "theorems": [
    "C30_rlp_decode_encode",
    "C30_rlp_encode_total",
    "C30_rlp_encode_decode",
    "C30_rlp_canonical"
   ],
   "note": "All items and all byte strings; encoding total below 2^64 bytes."
  },
  {
   "property": "C31",
   "status": "proved",
   "theorems": [
    "C31_reference_round_trip",
    "C31_reference_encodes",
    "C31_reference_decode_is_exact"
   ],
   "note": "Three theorems; decode is exact: whatever decodes is the encoding of the result."
  },
  {
   "property": "C32",
   "status": "partial",
   "theorems": [
    "C32_reference_equality_refuted"
   ],
   "note": "Refuted: the code violates this claim for every hash function (key a, data bc against key ab, data c). C67 is the true part."
  },
  {
   "property": "C33",
   "status": "proved",
   "theorems": [
    "C33_present_key_reads",
    "C33_absent_key_raises",
    "C33_absent_key_not_contained",
    "C33_keys_and_length",
    "C33_delete_absent_changes_nothing",
    "C33_delete_absent_error",
    "C33_update_succeeds",
    "C33_delete_succeeds"
   ],
   "note": "Eight theorems over all histories with failing storages; statuses are derived from the outcomes the caller saw."
  },
  {
   "property": "C34",
   "status": "proved",
   "theorems": [
    "C34_tampered_data_detected"
   ],
   "note": "Any replacement of the data storage; objects and their encodings are identified, as the code does."
  },
  {
   "property": "C35",
   "status": "proved",
   "theorems": [
    "C35_reads_are_acknowledged",
    "C35_other_keys_unaffected"
   ],
   "note": "No assumption on the hash for the first theorem: a value read is always the last acknowledged one."
  },
  {
   "property": "C36",
   "status": "partial",
   "theorems": [
    "C36_update_atomic_refuted",
    "C36_delete_atomic_refuted",
    "C36_failed_insertion_stuck_refuted"
   ],
   "note": "Refuted: the code violates this claim (update failing in the data storage: InvalidReferenceError afterwards; delete failing in the trie storage: KeyError although contains is True; failed insertion leaves a key that can be neither read nor deleted). C35 is the true part."
  },
  {
   "property": "C37",
   "status": "proved",
   "theorems": [
    "C37_build_trie"
   ],
   "note": "For data storages of bytes values; the result is the EMPT that updating the keys one by one gives."
  },
  {
   "property": "C38",
   "status": "partial",
   "theorems": [
    "C38_rebuild_refuted"
   ],
   "note": "Refuted: the code violates this claim (RuntimeError, and a node of the trie is lost)."
  },
  {
   "property": "C39",
   "status": "proved",
   "theorems": [
    "C39_root_view",
    "C39_sparse_view",
    "C39_sparse_follows_updates"
   ],
   "note": "Root view for every EMPT; sparse copy behaves like the trie under all later histories. Independence of the copy is by construction in the model: the code copies the dict."
  },
  {
   "property": "C40",
   "status": "partial",
   "theorems": [
    "C40_sparse_get_root_trie_refuted"
   ],
   "note": "Refuted: the code violates this claim for every SparseEMPT (RootEMPT has no parameter mode)."
  },
  {
   "property": "C41",
   "status": "partial",
   "theorems": [
    "C41_default_objects_independent_refuted",
    "C41_default_objects_clobber_refuted"
   ],
   "note": "Refuted: the code violates this claim (default arguments are shared)."
  },
  {
   "property": "C42",
   "status": "proved",
   "theorems": [
    "C42_plain_proofs_verify"
   ],
   "note": "All histories that end in a build. Any hash function."
  },
  {
   "property": "C43",
   "status": "partial",
   "theorems": [
    "C43_secure_proofs_verify_refuted",
    "C43_every_secure_proof_rejected_refuted"
   ],
   "note": "Refuted: the code violates this claim (the verifier hashes nothing, the proof's target is the value and the tree holds its digest). The second theorem: every proof made in secure mode is rejected unless the run hits a coincidence that the theorem states. C68 is the true part."
  },
  {
   "property": "C44",
   "status": "proved",
   "theorems": [
    "C44_tools_proofs_verify"
   ],
   "note": ""
  },
  {
   "property": "C45",
   "status": "partial",
   "theorems": [
    "C45_accepted_means_member_refuted",
    "C45_root_accepted_refuted",
    "C45_halves_accepted_refuted"
   ],
   "note": "Refuted: the code violates this claim. Every tree accepts its own root and the concatenation of its halves as members, any mode. C69 is what acceptance does establish."
  },
  {
   "property": "C46",
   "status": "partial",
   "theorems": [
    "C46_accepted_means_node_refuted"
   ],
   "note": "Refuted: the code violates this claim (a leaf may itself be a digest of a pair). C69 is the exact version."
  },
  {
   "property": "C47",
   "status": "partial",
   "theorems": [
    "C47_root_reflects_all_values_refuted"
   ],
   "note": "Refuted: the code violates this claim (put after make_tree leaves the old root). C70 is the true part."
  },
  {
   "property": "C48",
   "status": "proved",
   "theorems": [
    "C48_root_commits",
    "C48_root_commits_secure"
   ],
   "note": "Same number of values, all of one length; both modes (secure: any lengths)."
  },
  {
   "property": "C49",
   "status": "proved",
   "theorems": [
    "C49_flat_proof_round_trip",
    "C49_proof_encodes",
    "C49_decode_exact"
   ],
   "note": "Flat proofs of the accepted types, totality of encoding, and exactness of decoding."
  },
  {
   "property": "C50",
   "status": "partial",
   "theorems": [
    "C50_tree_proof_round_trip_refuted",
    "C50_single_leaf_round_trip"
   ],
   "note": "Refuted: the code violates this claim for every tree with at least two values. The round trip holds for one value (second theorem)."
  },
  {
   "property": "C51",
   "status": "proved",
   "theorems": [
    "C51_encrypt_decrypt",
    "C51_sign_verify",
    "C51_decrypt_needs_signature",
    "C51_unsigned_raises"
   ],
   "note": "RSA, OAEP, PKCS#1 and AES-EAX are arbitrary functions with the correctness equations of crypto_ok (SpecKeys.v)."
  },
  {
   "property": "C52",
   "status": "partial",
   "theorems": [
    "C52_encryption_key_pair_works_refuted",
    "C52_encrypt_raises_refuted",
    "C52_decrypt_raises_refuted"
   ],
   "note": "Refuted: the code violates this claim for every encryption key pair; both methods raise. RSA, OAEP, PKCS#1 and AES-EAX are arbitrary functions with the correctness equations of crypto_ok (SpecKeys.v)."
  },
  {
   "property": "C53",
   "status": "proved",
   "theorems": [
    "C53_password_round_trip"
   ],
   "note": "RSA, OAEP, PKCS#1 and AES-EAX are arbitrary functions with the correctness equations of crypto_ok (SpecKeys.v)."
  },
  {
   "property": "C54",
   "status": "proved",
   "theorems": [
    "C54_contains_characterised",
    "C54_contains_exact_without_prefixes"
   ],
   "note": ""
  },
  {
   "property": "C55",
   "status": "proved",
   "theorems": [
    "C55_update_succeeds"
   ],
   "note": ""
  },
  {
   "property": "C56",
   "status": "proved",
   "theorems": [
    "C56_accepted_inclusion_means_present"
   ],
   "note": "Fixed-length keys, or secure mode."
  },
  {
   "property": "C57",
   "status": "partial",
   "theorems": [
    "C57_root_alone_protects_reads_refuted"
   ],
   "note": "Refuted: the code violates this claim: flipping the flag of an encoded secure trie makes get(keccak(k)) return the value of k. C26 is the true part."
  },
  {
   "property": "C58",
   "status": "partial",
   "theorems": [
    "C58_equal_to_itself_refuted",
    "C58_equality_raises_on_other_than_hex_text_refuted"
   ],
   "note": "Refuted: the code violates this claim: the raw digest is parsed as hexadecimal text, so == raises ValueError unless all 32 bytes of the digest happen to be hexadecimal text."
  },
  {
   "property": "C59",
   "status": "proved",
   "theorems": [
    "C59_reopened_trie_is_the_same"
   ],
   "note": "The model object has no state beside storage, root and mode; the theorem shows that nothing else (the ghost log) influences results."
  },
  {
   "property": "C60",
   "status": "proved",
   "theorems": [
    "C60_root_depends_on_content_only",
    "C60_root_commits_to_content"
   ],
   "note": ""
  },
  {
   "property": "C61",
   "status": "proved",
   "theorems": [
    "C61_empt_inclusion_proof_accepted",
    "C61_empt_inclusion_proof_sound"
   ],
   "note": ""
  },
  {
   "property": "C62",
   "status": "proved",
   "theorems": [
    "C62_pop_present",
    "C62_pop_absent",
    "C62_setdefault_present",
    "C62_setdefault_absent",
    "C62_items",
    "C62_popitem",
    "C62_popitem_empty",
    "C62_clear"
   ],
   "note": "popitem, pop, setdefault, items, clear of collections.abc.MutableMapping over the EMPT methods."
  },
  {
   "property": "C63",
   "status": "partial",
   "theorems": [
    "C63_absent_key_not_contained_refuted"
   ],
   "note": "Refuted: the code violates this claim (keys dog and doge, absent key dogs). C33 has the true part."
  },
  {
   "property": "C64",
   "status": "partial",
   "theorems": [
    "C64_build_trie_objects_refuted"
   ],
   "note": "Refuted: the code violates this claim (TypeError for objects)."
  },
  {
   "property": "C65",
   "status": "partial",
   "theorems": [
    "C65_sparse_update_objects_refuted",
    "C65_sparse_update_no_object"
   ],
   "note": "Refuted: the code violates this claim for every object (hasattr is called with one argument)."
  },
  {
   "property": "C66",
   "status": "partial",
   "theorems": [
    "C66_sparse_holds_no_data_refuted"
   ],
   "note": "Refuted: the code violates this claim for every present key: get_reference(k).data is the value; the reference stored in the trie contains the data."
  },
  {
   "property": "C67",
   "status": "proved",
   "theorems": [
    "C67_reference_equality_same_key_length"
   ],
   "note": ""
  },
  {
   "property": "C68",
   "status": "proved",
   "theorems": [
    "C68_secure_proofs_verify_for_the_digest",
    "C68_secure_proofs_exist"
   ],
   "note": ""
  },
  {
   "property": "C69",
   "status": "proved",
   "theorems": [
    "C69_accepted_target",
    "C69_accepted_target_secure"
   ],
   "note": "Target of digest length (otherwise C45 applies); siblings of any length."
  },
  {
   "property": "C70",
   "status": "proved",
   "theorems": [
    "C70_root_after_make",
    "C70_root_until_next_make",
    "C70_root_without_make"
   ],
   "note": "Three theorems: after a build, until the next build, without a build."
  },
  {
   "property": "C71",
   "status": "partial",
   "theorems": [
    "C71_root_commits_to_count_refuted"
   ],
   "note": "Refuted: the code violates this claim (the two-value tree a,b and the one-value tree of its concatenated digest)."
  },
  {
   "property": "C72",
   "status": "proved",
   "theorems": [
    "C72_secure_root_commits_to_everything"
   ],
   "note": ""
  },
  {
   "property": "C73",
   "status": "proved",
   "theorems": [
    "C73_same_sides",
    "C73_sides_fix_the_position"
   ],
   "note": ""
  },
  {
   "property": "C74",
   "status": "proved",
   "theorems": [
    "C74_acceptance_exactly",
    "C74_acceptance_built"
   ],
   "note": "Two theorems: in any state, and on a built tree."
  },
  {
   "property": "C75",
   "status": "partial",
   "theorems": [
    "C75_tree_equality_refuted"
   ],
   "note": "Refuted: the code violates this claim (leading zeros are ignored, an empty leaf raises). C76 is the true part."
  },
  {
   "property": "C76",
   "status": "proved",
   "theorems": [
    "C76_tree_equality_same_length"
   ],
   "note": ""
  },
  {
   "property": "C77",
   "status": "proved",
   "theorems": [
    "C77_leaves"
   ],
   "note": ""
  },
  {
   "property": "C78",
   "status": "partial",
   "theorems": [
    "C78_put_list_atomic_refuted"
   ],
   "note": "Refuted: the code violates this claim (values before the bad one stay)."
  },
  {
   "property": "C79",
   "status": "partial",
   "theorems": [
    "C79_ready_tree_proves_all_refuted",
    "C79_proof_raises_refuted",
    "C79_old_value_loses_its_proof_refuted"
   ],
   "note": "Refuted: the code violates this claim in three ways (a new value is unknown to the upper levels, IndexError, an old value loses its proof). C42 is the true part."
  },
  {
   "property": "C80",
   "status": "partial",
   "theorems": [
    "C80_verification_returns_refuted"
   ],
   "note": "Refuted: the code violates this claim; the theorem lists five kinds of exceptions for every tree."
  },
  {
   "property": "C81",
   "status": "partial",
   "theorems": [
    "C81_root_of_nonempty_tree_refuted"
   ],
   "note": "Refuted: the code violates this claim (asking for the root of an empty tree first makes later calls fail)."
  },
  {
   "property": "C82",
   "status": "proved",
   "theorems": [
    "C82_values_kept",
    "C82_questions_only_build",
    "C82_absent_value_has_no_proof"
   ],
   "note": ""
  },
  {
   "property": "C83",
   "status": "partial",
   "theorems": [
    "C83_root_commits_any_length_refuted"
   ],
   "note": "Refuted: the code violates this claim (the border between two leaves is not committed). C48 is the true part for values of one length."
  },
  {
   "property": "C84",
   "status": "proved",
   "theorems": [
    "C84_json_round_trip"
   ],
   "note": ""
  },
  {
   "property": "C85",
   "status": "proved",
   "theorems": [
    "C85_json_encodes_text_only"
   ],
   "note": ""
  },
  {
   "property": "C86",
   "status": "proved",
   "theorems": [
    "C86_json_refuses_trie_proofs"
   ],
   "note": ""
  },
  {
   "property": "C87",
   "status": "proved",
   "theorems": [
    "C87_json_accepts"
   ],
   "note": "json.loads is modelled without the recursion limit of the interpreter; numbers are kept as text."
  },
  {
   "property": "C88",
   "status": "partial",
   "theorems": [
    "C88_merkle_proofs_encode_refuted",
    "C88_only_a_single_value_encodes"
   ],
   "note": "Refuted: the code violates this claim for every tree with at least two values (the elements are pairs). The second theorem is the true part, trees with one value."
  },
  {
   "property": "C89",
   "status": "proved",
   "theorems": [
    "C89_equality_exact",
    "C89_text_determines_proof"
   ],
   "note": ""
  },
  {
   "property": "C90",
   "status": "partial",
   "theorems": [
    "C90_same_key_equal_proofs_refuted",
    "C90_same_key_equal_trie_proofs_refuted"
   ],
   "note": "Refuted: the code violates this claim for every tree, trie and key (the timestamp is compared)."
  },
  {
   "property": "C91",
   "status": "proved",
   "theorems": [
    "C91_next_without_iter",
    "C91_next_after_iter",
    "C91_iteration"
   ],
   "note": ""
  },
  {
   "property": "C92",
   "status": "partial",
   "theorems": [
    "C92_nested_iteration_refuted"
   ],
   "note": "Refuted: the code violates this claim for every proof; only the 5 pairs with the first field are seen."
  },
  {
   "property": "C93",
   "status": "partial",
   "theorems": [
    "C93_message_is_for_the_receiver_refuted"
   ],
   "note": "Refuted: the code violates this claim; any receiver can pass the message on to anybody. RSA, OAEP, PKCS#1 and AES-EAX are arbitrary functions with the correctness equations of crypto_ok (SpecKeys.v)."
  },
  {
   "property": "C94",
   "status": "partial",
   "theorems": [
    "C94_message_is_from_the_sender_refuted"
   ],
   "note": "Refuted: the code violates this claim; the session key is not signed. Uses that EAX encrypts onto all byte strings. C51_decrypt_needs_signature is the true part. RSA, OAEP, PKCS#1 and AES-EAX are arbitrary functions with the correctness equations of crypto_ok (SpecKeys.v)."
  },
  {
   "property": "C95",
   "status": "proved",
   "theorems": [
    "C95_restricted_classes"
   ],
   "note": ""
  },
  {
   "property": "C96",
   "status": "proved",
   "theorems": [
    "C96_key_string_round_trip",
    "C96_key_string_exists"
   ],
   "note": "RSA, OAEP, PKCS#1 and AES-EAX are arbitrary functions with the correctness equations of crypto_ok (SpecKeys.v)."
  },
  {
   "property": "C97",
   "status": "proved",
   "theorems": [
    "C97_key_file_round_trip",
    "C97_other_files_unchanged",
    "C97_failed_export_changes_nothing",
    "C97_missing_file"
   ],
   "note": "RSA, OAEP, PKCS#1 and AES-EAX are arbitrary functions with the correctness equations of crypto_ok (SpecKeys.v)."
  },
  {
   "property": "C98",
   "status": "partial",
   "theorems": [
    "C98_interrupted_save_refuted",
    "C98_failed_save_keeps_the_file_refuted"
   ],
   "note": "Refuted: opening for writing empties the file, and wherever the write stops, what is left does not load. C97 has the true part."
  },
  {
   "property": "C99",
   "status": "partial",
   "theorems": [
    "C99_wrong_public_key_refused_refuted"
   ],
   "note": "Refuted: the code violates this claim for every public key text."
  },
  {
   "property": "C100",
   "status": "proved",
   "theorems": [
    "C100_equality",
    "C100_as_method",
    "C100_kinds_apart"
   ],
   "note": "Proved for string nicknames; RSA, OAEP, PKCS#1 and AES-EAX are arbitrary functions with the correctness equations of crypto_ok (SpecKeys.v)."
  },
  {
   "property": "C101",
   "status": "partial",
   "theorems": [
    "C101_hashable_refuted"
   ],
   "note": "Refuted: the code violates this claim; __hash__ returns bytes."
  },
  {
   "property": "C102",
   "status": "proved",
   "theorems": [
    "C102_signature_valid_exact",
    "C102_unloadable_key_raises"
   ],
   "note": "RSA, OAEP, PKCS#1 and AES-EAX are arbitrary functions with the correctness equations of crypto_ok (SpecKeys.v)."
  },
  {
   "property": "C103",
   "status": "proved",
   "theorems": [
    "C103_password_decrypt_exact",
    "C103_password_keys"
   ],
   "note": "RSA, OAEP, PKCS#1 and AES-EAX are arbitrary functions with the correctness equations of crypto_ok (SpecKeys.v)."
  },
  {
   "property": "C104",
   "status": "proved",
   "theorems": [
    "C104_unknown_kind",
    "C104_key_valid_exact",
    "C104_unloadable_key"
   ],
   "note": "RSA, OAEP, PKCS#1 and AES-EAX are arbitrary functions with the correctness equations of crypto_ok (SpecKeys.v)."
  },
  {
   "property": "C105",
   "status": "partial",
   "theorems": [
    "C105_invalid_key_raises_refuted"
   ],
   "note": "Refuted: the code violates this claim for every key of the other kind."
  },
  {
   "property": "C106",
   "status": "proved",
   "theorems": [
    "C106_hash_data"
   ],
   "note": "RSA, OAEP, PKCS#1 and AES-EAX are arbitrary functions with the correctness equations of crypto_ok (SpecKeys.v)."
  },
  {
   "property": "C107",
   "status": "proved",
   "theorems": [
    "C107_get_exact"
   ],
   "note": "Proved for values that are non-empty unless in secure mode and hash inputs that do not collide."
  },
  {
   "property": "C108",
   "status": "partial",
   "theorems": [
    "C108_absent_key_raises_KeyError_refuted",
    "C108_empty_trie"
   ],
   "note": "Refuted: on a trie that holds a key, an absent key never raises KeyError. C108_empty_trie says what empty tries do; C109 and C110 are the true exceptions."
  },
  {
   "property": "C109",
   "status": "proved",
   "theorems": [
    "C109_get_exceptions"
   ],
   "note": "Proved; get, delete and proof generation get enough stack frames."
  },
  {
   "property": "C110",
   "status": "proved",
   "theorems": [
    "C110_delete_exceptions"
   ],
   "note": "Proved; get, delete and proof generation get enough stack frames."
  },
  {
   "property": "C111",
   "status": "proved",
   "theorems": [
    "C111_inclusion_proof_of_absent_key"
   ],
   "note": "Proved; get, delete and proof generation get enough stack frames."
  },
  {
   "property": "C112",
   "status": "proved",
   "theorems": [
    "C112_exclusion_proof_exact",
    "C112_no_exclusion_proof"
   ],
   "note": "Proved. For an extension left below the root the theorem gives the two possible outcomes; which one depends on whether that node is shorter than 32 bytes."
  },
  {
   "property": "C113",
   "status": "proved",
   "theorems": [
    "C113_delete_absent_unchanged",
    "C113_present",
    "C113_contains",
    "C113_update_succeeds",
    "C113_delete_succeeds",
    "C113_delete_absent_raises",
    "C113_delete_missing",
    "C113_same_root_as_empt"
   ],
   "note": "Proved for keys and values below 2^57 bytes and hash inputs that do not collide; only bytes values are accepted (C65 is the refutation for objects)."
  },
  {
   "property": "C114",
   "status": "partial",
   "theorems": [
    "C114_sparse_reference_refuted",
    "C114_empt_reference_refuted"
   ],
   "note": "Refuted for both classes with keccak-256: with \"horse\" and \"dog\", get_reference(\"h\") is the reference of \"horse\". C115 is the true statement."
  },
  {
   "property": "C115",
   "status": "proved",
   "theorems": [
    "C115_reference_exact"
   ],
   "note": "Proved."
  },
  {
   "property": "C116",
   "status": "proved",
   "theorems": [
    "C116_sparse_round_trip",
    "C116_root_round_trip",
    "C116_root_can_be_sent"
   ],
   "note": "Proved. A SparseEMPT emptied by deletes has root None and cannot be encoded, as C25 says of MPT."
  },
  {
   "property": "C117",
   "status": "proved",
   "theorems": [
    "C117_exclusion_proof_is_a_chain"
   ],
   "note": "Proved, with no assumption on collisions. Inclusion proofs do not have this property (C17 example)."
  },
  {
   "property": "C118",
   "status": "proved",
   "theorems": [
    "C118_decode_json_exact",
    "C118_not_json",
    "C118_one_value"
   ],
   "note": "Proved against a grammar of JSON that is independent of the parser (SpecJson.v)."
  },
  {
   "property": "C119",
   "status": "proved",
   "theorems": [
    "C119_encode_json_text",
    "C119_text_is_utf8",
    "C119_printable"
   ],
   "note": "Proved against the same grammar."
  },
  {
   "property": "C120",
   "status": "proved",
   "theorems": [
    "C120_decrypt_exact",
    "C120_encrypt_sends"
   ],
   "note": "Proved; RSA, OAEP, PKCS#1 and AES-EAX are arbitrary functions."
  },
  {
   "property": "C121",
   "status": "proved",
   "theorems": [
    "C121_from_key_string_exact",
    "C121_to_key_string_text"
   ],
   "note": "Proved; RSA, OAEP, PKCS#1 and AES-EAX are arbitrary functions."
  },
  {
   "property": "C122",
   "status": "partial",
   "theorems": [
    "C122_nickname_kept_refuted",
    "C122_key_kept"
   ],
   "note": "Refuted: the nickname comes back exactly if it has no low surrogate right after a high one; the key always comes back."
  },
  {
   "property": "C123",
   "status": "partial",
   "theorems": [
    "C123_at_exact",
    "C123_negative_from_end_refuted"
   ],
   "note": "Refuted: after consume, negative positions return consumed nibbles. C123_at_exact says what at returns for every integer."
  },
  {
   "property": "C124",
   "status": "partial",
   "theorems": [
    "C124_nickname_is_string_refuted"
   ],
   "note": "Refuted for every JSON value; C121 says exactly what is loaded."
  },
  {
   "property": "C125",
   "status": "proved",
   "theorems": [
    "C125_rlp_encode_exact",
    "C125_rlp_decode_exact",
    "C125_one_text_per_item"
   ],
   "note": "Proved against an inductive relation (SpecRlp.v) that is independent of the coder."
  },
  {
   "property": "C126",
   "status": "proved",
   "theorems": [
    "C126_path_encode_exact",
    "C126_path_decode_exact",
    "C126_node_encode_exact",
    "C126_node_decode_exact"
   ],
   "note": "Proved against inductive relations (SpecRlp.v)."
  },
  {
   "property": "C127",
   "status": "partial",
   "theorems": [
    "C127_one_text_per_node_refuted",
    "C127_nested_as_string_refuted"
   ],
   "note": "Refuted: every text of a leaf or extension (below 2^63 bytes) has another one, and so has every text of a branch with a nested node. C126 says exactly which texts are read."
  },
  {
   "property": "C128",
   "status": "proved",
   "theorems": [
    "C128_mpt_decode_exact"
   ],
   "note": "Proved in both directions."
  },
  {
   "property": "C129",
   "status": "proved",
   "theorems": [
    "C129_reference_decode_exact"
   ],
   "note": "Proved in both directions."
  },
  {
   "property": "C130",
   "status": "proved",
   "theorems": [
    "C130_proof_decode_exact"
   ],
   "note": "Proved in both directions."
  },
  {
   "property": "C131",
   "status": "partial",
   "theorems": [
    "C131_proof_not_malleable_refuted",
    "C131_only_readings_count",
    "C131_first_node_fixed"
   ],
   "note": "Refuted: every leaf or extension after the first node of a proof can be replaced by other bytes without changing the result. C131_only_readings_count and C131_first_node_fixed are the true parts: only what a node is read as counts, and the first node has the digest of the root."
  },
  {
   "property": "C132",
   "status": "proved",
   "theorems": [
    "C132_bare_decode_exact"
   ],
   "note": "Proved in both directions."
  },
  {
   "property": "C133",
   "status": "partial",
   "theorems": [
    "C133_marker_means_value_refuted"
   ],
   "note": "Refuted: rlp never gives None, so the marker is always there."
  },
  {
   "property": "C134",
   "status": "partial",
   "theorems": [
    "C134_bare_round_trip_refuted"
   ],
   "note": "Refuted: nothing that is written without data can be decoded."
  },
  {
   "property": "C135",
   "status": "proved",
   "theorems": [
    "C135_path_methods",
    "C135_at_end",
    "C135_decode",
    "C135_consume"
   ],
   "note": "Proved on a second model of NibblePath with Python integers, index errors and both types of data."
  },
  {
   "property": "C136",
   "status": "partial",
   "theorems": [
    "C136_consume_too_much_refuted"
   ],
   "note": "Refuted: consume never raises; afterwards len, ==, starts_with, common_prefix, combine and encode raise ValueError, also as the other operand."
  },
  {
   "property": "C137",
   "status": "partial",
   "theorems": [
    "C137_negative_offset_refuted"
   ],
   "note": "Refuted: with offset -i the last i nibbles come first, followed by all nibbles."
  },
  {
   "property": "C138",
   "status": "partial",
   "theorems": [
    "C138_path_texts_refuted",
    "C138_texts_of_bytes"
   ],
   "note": "Refuted: what common_prefix and combine return holds a list and raises AttributeError. Paths made of bytes have texts, and repr tells them apart (C138_texts_of_bytes)."
  },
  {
   "property": "C139",
   "status": "proved",
   "theorems": [
    "C139_bytes_repr",
    "C139_literal_value",
    "C139_proof_repr"
   ],
   "note": "Proved against an inductive grammar of literals."
  },
  {
   "property": "C140",
   "status": "proved",
   "theorems": [
    "C140_key_pair_texts",
    "C140_no_keys"
   ],
   "note": "Proved; str of the nickname is an argument."
  },
  {
   "property": "C141",
   "status": "partial",
   "theorems": [
    "C141_hash_of_concatenation",
    "C141_tells_lists_apart_refuted",
    "C141_same_lengths"
   ],
   "note": "Refuted: moving a boundary between items never changes the hash. Lists with the same lengths are told apart (C141_same_lengths)."
  },
  {
   "property": "C142",
   "status": "partial",
   "theorems": [
    "C142_file_exists",
    "C142_double_slash_refuted"
   ],
   "note": "Refuted for names that start with \".//\": the rest is taken as an absolute name. Proved for all other names."
  },
  {
   "property": "C143",
   "status": "proved",
   "theorems": [
    "C143_decode_json_errors",
    "C143_decode_json_mpt"
   ],
   "note": "Proved."
  },
  {
   "property": "C144",
   "status": "proved",
   "theorems": [
    "C144_time_stamps",
    "C144_proofs_in_time"
   ],
   "note": "Proved."
  },
  {
   "property": "C145",
   "status": "proved",
   "theorems": [
    "C145_root_hash",
    "C145_root"
   ],
   "note": "Proved against SpecYp.v, an inductive definition on sets of pairs that knows no trees."
  },
  {
   "property": "C146",
   "status": "proved",
   "theorems": [
    "C146_sparse_root_hash",
    "C146_empt_root_hash"
   ],
   "note": "Proved; for EMPT after histories whose outcome is known for every key."
  },
  {
   "property": "C147",
   "status": "proved",
   "theorems": [
    "C147_inclusion_proof"
   ],
   "note": "Proved."
  },
  {
   "property": "C148",
   "status": "proved",
   "theorems": [
    "C148_exclusion_proof"
   ],
   "note": "Proved; when a proof is returned at all is C109-C112."
  },
  {
   "property": "C149",
   "status": "proved",
   "theorems": [
    "C149_storage_complete"
   ],
   "note": "Proved."
  },
  {
   "property": "C150",
   "status": "proved",
   "theorems": [
    "C150_update_cost"
   ],
   "note": "Proved; the example shows that the bounds are reached."
  },
  {
   "property": "C151",
   "status": "proved",
   "theorems": [
    "C151_delete_cost"
   ],
   "note": "Proved; the example shows that the bounds are reached."
  },
  {
   "property": "C152",
   "status": "proved",
   "theorems": [
    "C152_partial_reads",
    "C152_partial_calls"
   ],
   "note": "Proved. Non-empty, because get on an empty trie looks up the digest of the empty node, which a foreign storage may have."
  },
  {
   "property": "C153",
   "status": "proved",
   "theorems": [
    "C153_shared_storage"
   ],
   "note": "Proved, for histories whose node texts do not collide."
  },
  {
   "property": "C154",
   "status": "proved",
   "theorems": [
    "C154_entries_read"
   ],
   "note": "Proved."
  },
  {
   "property": "C155",
   "status": "proved",
   "theorems": [
    "C155_proof_as_storage"
   ],
   "note": "Proved. delete is not covered: it may need a sibling that is not in the proof, and then raises KeyError (C152)."
  },
  {
   "property": "C156",
   "status": "proved",
   "theorems": [
    "C156_storage_size"
   ],
   "note": "Proved."
  },
  {
   "property": "C157",
   "status": "proved",
   "theorems": [
    "C157_audit_path",
    "C157_length"
   ],
   "note": "Proved."
  },
  {
   "property": "C158",
   "status": "proved",
   "theorems": [
    "C158_accepted_inclusion"
   ],
   "note": "Proved as an equivalence, without any assumption on the trie or the hash."
  },
  {
   "property": "C159",
   "status": "proved",
   "theorems": [
    "C159_accepted_exclusion"
   ],
   "note": "Proved as an equivalence, without any assumption on the trie or the hash. It shows why C22 is false: a digest that no element has counts as absence."
  },
  {
   "property": "C160",
   "status": "proved",
   "theorems": [
    "C160_every_call",
    "C160_state"
   ],
   "note": "Proved as an equivalence with a relation on (values put, built over how many); no assumption on the hash."
  },
  {
   "property": "C161",
   "status": "proved",
   "theorems": [
    "C161_verification"
   ],
   "note": "Proved as an equivalence."
  },
  {
   "property": "C162",
   "status": "proved",
   "theorems": [
    "C162_proofs_between_builds"
   ],
   "note": "Proved. What get_proof_of_inclusion does for values put after the build is part of C160 (relation climb)."
  },
  {
   "property": "C163",
   "status": "partial",
   "theorems": [
    "C163_proofs_verify_between_builds_refuted"
   ],
   "note": "False of the code: the last of an odd number of values gets a wrong first sibling. Refuted for every such tree, barring a collision."
  },
  {
   "property": "C164",
   "status": "partial",
   "theorems": [
    "C164_uncovered_value_has_no_proof_refuted"
   ],
   "note": "False of the code: after a build over two values and one put, the third value has a proof with no elements."
  },
  {
   "property": "C165",
   "status": "proved",
   "theorems": [
    "C165_comparing_any_trees"
   ],
   "note": "Proved."
  },
  {
   "property": "C166",
   "status": "proved",
   "theorems": [
    "C166_reset"
   ],
   "note": "Proved."
  },
  {
   "property": "C167",
   "status": "proved",
   "theorems": [
    "C167_creation",
    "C167_refusal",
    "C167_counts"
   ],
   "note": "Proved. The type check of hash_type (any object with lower()) is not modelled."
  },
  {
   "property": "C168",
   "status": "proved",
   "theorems": [
    "C168_number",
    "C168_hash",
    "C168_equality"
   ],
   "note": "Proved as equivalences with a grammar of the texts that int(b, 16) takes."
  },
  {
   "property": "C169",
   "status": "proved",
   "theorems": [
    "C169_slot",
    "C169_builtin",
    "C169_builtin_raises",
    "C169_equal_tries_equal_hashes",
    "C169_any_operand"
   ],
   "note": "Proved. The step from __hash__ to hash() is the one of CPython on 64 bits."
  },
  {
   "property": "C170",
   "status": "proved",
   "theorems": [
    "C170_decode_raises"
   ],
   "note": "Proved as an equivalence with the RLP and hex-prefix relations. Recursion of the RLP decoder is not limited in the model."
  },
  {
   "property": "C171",
   "status": "proved",
   "theorems": [
    "C171_inclusion",
    "C171_exceptions"
   ],
   "note": "Proved as an equivalence; C171_exceptions lists the kinds of exceptions."
  },
  {
   "property": "C172",
   "status": "proved",
   "theorems": [
    "C172_exclusion",
    "C172_exceptions"
   ],
   "note": "Proved as an equivalence; C172_exceptions lists the kinds of exceptions."
  },
  {
   "property": "C173",
   "status": "partial",
   "theorems": [
    "C173_verification_returns_a_bool_refuted"
   ],
   "note": "False of the code: every accepted proof with one more element, the text of the empty string, raises AssertionError. C171 and C172 say exactly what is raised when."
  },
  {
   "property": "C174",
   "status": "proved",
   "theorems": [
    "C174_every_call",
    "C174_only_answer"
   ],
   "note": "Proved: C174_every_call for all histories from a new EMPT, C174_only_answer for uniqueness of the answers. Assumes no collision among the texts hashed and sizes below 2^57. build_trie and the exports are other claims. The methods inherited from MutableMapping meet no storage faults in the model."
  },
  {
   "property": "C175",
   "status": "proved",
   "theorems": [
    "C175_every_call"
   ],
   "note": "Proved for all histories from a new SparseEMPT, with uniqueness of the answers."
  },
  {
   "property": "C176",
   "status": "proved",
   "theorems": [
    "C176_equality"
   ],
   "note": "Proved; comparison of two values is a parameter. Mapping.__eq__ is from the standard library, modelled as documented."
  },
  {
   "property": "C177",
   "status": "proved",
   "theorems": [
    "C177_trie",
    "C177_reference",
    "C177_proof",
    "C177_bare_node"
   ],
   "note": "Proved as equivalences for each decoder. Nesting deeper than the recursion limit of Python (in rlp.decode) is not modelled."
  },
  {
   "property": "C178",
   "status": "proved",
   "theorems": [
    "C178_more_room",
    "C178_update_deep",
    "C178_delete_deep",
    "C178_inclusion",
    "C178_exclusion",
    "C178_no_room"
   ],
   "note": "Proved for arbitrary tries and storages. One frame per node is counted; the frames of helper functions are not."
  },
  {
   "property": "C179",
   "status": "proved",
   "theorems": [
    "C179_build",
    "C179_rebuild",
    "C179_foreign_data"
   ],
   "note": "Proved: C179_build and C179_rebuild for any trie and data, C179_foreign_data after any calls (no collision among the texts hashed)."
  },
  {
   "property": "C180",
   "status": "partial",
   "theorems": [
    "C180_injected_data_detected_refuted",
    "C180_injected_data_detected"
   ],
   "note": "False without secure mode: with \"ab\" -> \"c\" and \"b\" -> \"x\" stored, data \"bc\" under \"a\" is returned by get(\"a\"), since the trie answers with the reference of \"ab\" and its checksum is over \"abc\". C180_injected_data_detected_refuted. True in secure mode or with keys of one length: C180_injected_data_detected."
  },
  {
   "property": "C181",
   "status": "proved",
   "theorems": [
    "C181_every_call"
   ],
   "note": "Proved, under: no two node texts or (in secure mode) keys of the history with the same Keccak digest, digests of 32 bytes, values not empty unless in secure mode, keys and values below 2^59 bytes."
  },
  {
   "property": "C182",
   "status": "proved",
   "theorems": [
    "C182_contents",
    "C182_one_outcome",
    "C182_one_contents",
    "C182_no_loss"
   ],
   "note": "Proved, under: no two node texts of the history with the same digest, digests of 32 bytes, keys and values below 2^59 bytes."
  },
  {
   "property": "C183",
   "status": "partial",
   "theorems": [
    "C183_root_of_contents_refuted"
   ],
   "note": "False of the code: \"dog\" -> \"\" and then \"doge\" -> \"y\" leaves the contents of \"doge\" -> \"y\" alone, with another root hash. With non-empty values it is C07."
  },
  {
   "property": "C184",
   "status": "proved",
   "theorems": [
    "C184_inclusion_accepted",
    "C184_accepted_inclusion",
    "C184_exclusion_made"
   ],
   "note": "Proved, under: no two node texts of the history and the offered proof with the same digest, digests of 32 bytes, keys and values below 2^59 bytes, enough frames for the key. What is held is the dictionary of C182."
  },
  {
   "property": "C185",
   "status": "proved",
   "theorems": [
    "C185_key_pairs_after_calls",
    "C185_files_after_calls",
    "C185_raising_call"
   ],
   "note": "Proved, for any functions in place of the primitives of PyCryptodome."
  },
  {
   "property": "C186",
   "status": "proved",
   "theorems": [
    "C186_unfit_arguments",
    "C186_unfit_class_arguments"
   ],
   "note": "Proved. The restricted classes raise NotImplementedError before any test (C95)."
  },
  {
   "property": "C187",
   "status": "proved",
   "theorems": [
    "C187_signature_lasts",
    "C187_signature_for_others",
    "C187_message_lasts",
    "C187_file_lasts",
    "C187_string_lasts",
    "C187_public_key"
   ],
   "note": "Proved, under the correctness equations of the primitives and keys of 1024 bits or more; saved nicknames are JSON values without surrogates."
  },
  {
   "property": "C188",
   "status": "partial",
   "theorems": [
    "C188_failing_save_keeps_the_file_refuted",
    "C188_what_a_failing_save_leaves",
    "C188_with_json_nicknames"
   ],
   "note": "Refuted: the setter of nickname accepts a value that JSON cannot write (bytes, say); to_key_file then opens the file, which empties it, and raises TypeError. The old keys are gone and loading raises JSONDecodeError. Proved: exactly what a failing save leaves; with a JSON nickname and room on the disk it changes nothing. C98 is the case of a failing disk."
  },
  {
   "property": "C189",
   "status": "partial",
   "theorems": [
    "C189_nickname_is_a_string_refuted",
    "C189_new_key_pair",
    "C189_no_text_of_such_a_key_pair"
   ],
   "note": "Refuted: the setter tests nothing. Proved: it holds for a new key pair; a key pair whose nickname JSON cannot write has no key string."
  },
  {
   "property": "C190",
   "status": "partial",
   "theorems": [
    "C190_time_stamps_can_be_read_refuted",
    "C190_time_stamps_in_order",
    "C190_length"
   ],
   "note": "Refuted: without Django the name datetime is the class, which has no attribute datetime, so that every call of from_timstamp_string raises AttributeError. Proved: the texts of get_timestamp_string order and tell apart times to the second; they have 20 characters, the documented ones and a blank. The installation with Django is not modelled."
  },
  {
   "property": "C191",
   "status": "proved",
   "theorems": [
    "C191_id_form",
    "C191_same_id"
   ],
   "note": "Proved; the random bytes are an argument."
  },
  {
   "property": "C192",
   "status": "proved",
   "theorems": [
    "C192_hash_data",
    "C192_hash_names",
    "C192_passwords",
    "C192_right_passwords",
    "C192_key_valid",
    "C192_key_kinds",
    "C192_raise_exeptions",
    "C192_names_of_files"
   ],
   "note": "Proved."
  },
  {
   "property": "C193",
   "status": "proved",
   "theorems": [
    "C193_hash_objects",
    "C193_new_keys"
   ],
   "note": "Proved; reading back an unencrypted private key is an assumption on PyCryptodome."
  },
  {
   "property": "C194",
   "status": "proved",
   "theorems": [
    "C194_every_call",
    "C194_later_calls",
    "C194_comparison"
   ],
   "note": "Proved. Hashing is a parameter; the proof argument of verify is any list of dicts from texts to texts or other values."
  },
  {
   "property": "C195",
   "status": "proved",
   "theorems": [
    "C195_text",
    "C195_same_text"
   ],
   "note": "Proved, with the quoting rules of repr for bytes and bytearray."
  },
  {
   "property": "C196",
   "status": "partial",
   "theorems": [
    "C196_example_refuted",
    "C196_text_target",
    "C196_text_root"
   ],
   "note": "Refuted: the shipped example raises KeyError for every hash function. Proved: a proof with elements raises for every target that is not bytes, and is never accepted for a root that is not bytes."
  },
  {
   "property": "C197",
   "status": "proved",
   "theorems": [
    "C197_own_proof"
   ],
   "note": "Proved."
  },
  {
   "property": "C198",
   "status": "partial",
   "theorems": [
    "C198_bytes_only_refuted",
    "C198_as_bytes",
    "C198_means_or_raises",
    "C198_refused"
   ],
   "note": "Refuted: without secure, add_leaf(n) adds n zero bytes. Proved: exactly which arguments are read as which bytes and what the others raise; a refused argument changes nothing."
  },
  {
   "property": "C199",
   "status": "proved",
   "theorems": [
    "C199_views",
    "C199_keys",
    "C199_other_key"
   ],
   "note": "Proved; the equality of values is an arbitrary boolean function."
  },
  {
   "property": "C200",
   "status": "partial",
   "theorems": [
    "C200_rebuild_list_refuted",
    "C200_lost_for_good",
    "C200_first_build"
   ],
   "note": "Refuted: all nodes are deleted, the attribute with the root stays, and the first write raises; after it every call on the object is described, none ever makes it usable again. Proved: over a storage without nodes it is the build_trie of C37."
  },
  {
   "property": "C201",
   "status": "proved",
   "theorems": [
    "C201_shared_calls",
    "C201_only_answer"
   ],
   "note": "Proved. Sound for all histories; without failures the description leaves one answer. If a digest of key and value begins with six zero bytes, opening an emptied object may succeed instead of raising ValueError (the trie storage may never have held a node)."
  },
  {
   "property": "C202",
   "status": "proved",
   "theorems": [
    "C202_snapshot"
   ],
   "note": "Proved, for an object whose root() was not None when it was opened."
  },
  {
   "property": "C203",
   "status": "proved",
   "theorems": [
    "C203_change_example"
   ],
   "note": "Proved for every hash function with 32-byte digests, no collision among the nodes, and no digest that begins with six zero bytes."
  },
  {
   "property": "C204",
   "status": "proved",
   "theorems": [
    "C204_shared_proofs"
   ],
   "note": "Proved."
  },
  {
   "property": "C205",
   "status": "proved",
   "theorems": [
    "C205_inclusion_example"
   ],
   "note": "Proved."
  },
  {
   "property": "C206",
   "status": "partial",
   "theorems": [
    "C206_exclusion_example_refuted"
   ],
   "note": "Refuted for every hash function: all keys begin with the nibble 6, the root is an extension, b\"wolf\" leaves it, and the proof that is made is refused by the trie that made it."
  },
  {
   "property": "C207",
   "status": "proved",
   "theorems": [
    "C207_sign_and_verify",
    "C207_encrypted_com",
    "C207_rsa_tools"
   ],
   "note": "Proved."
  },
  {
   "property": "C208",
   "status": "partial",
   "theorems": [
    "C208_merkle_example_refuted",
    "C208_what_the_script_prints"
   ],
   "note": "Refuted for every hash function without collisions on the strings concerned: MerkleTree() is secure by default, the proof carries the raw value, and verification returns False. Everything the script prints is stated exactly."
  },
  {
   "property": "C209",
   "status": "proved",
   "theorems": [
    "C209_interrupted_build",
    "C209_completed_by_updates",
    "C209_failing_read",
    "C209_no_failures"
   ],
   "note": "Proved."
  },
  {
   "property": "C210",
   "status": "partial",
   "theorems": [
    "C210_build_again_refuted"
   ],
   "note": "Refuted: the second call raises RuntimeError after deleting a node (the storage is a dict), the keys that could be read raise KeyError, and so does every further build_trie."
  },
  {
   "property": "C211",
   "status": "proved",
   "theorems": [
    "C211_received_copy",
    "C211_what_a_copy_answers"
   ],
   "note": "Proved."
  },
  {
   "property": "C212",
   "status": "proved",
   "theorems": [
    "C212_following_the_owner"
   ],
   "note": "Proved."
  },
  {
   "property": "C213",
   "status": "proved",
   "theorems": [
    "C213_any_proof",
    "C213_reading_a_proof"
   ],
   "note": "Proved."
  },
  {
   "property": "C214",
   "status": "proved",
   "theorems": [
    "C214_every_loop",
    "C214_only_way"
   ],
   "note": "Proved. Where keys were replaced by as many others in one turn the model stops (LFree): Python leaves open what follows."
  },
  {
   "property": "C215",
   "status": "proved",
   "theorems": [
    "C215_setting_in_a_loop"
   ],
   "note": "Proved."
  },
  {
   "property": "C216",
   "status": "partial",
   "theorems": [
    "C216_deleting_in_a_loop_refuted",
    "C216_deleting_over_a_list"
   ],
   "note": "Refuted for every EMPT with a key: the first key is deleted and RuntimeError is raised. Over a list of the keys it works (C216_deleting_over_a_list)."
  },
  {
   "property": "C217",
   "status": "proved",
   "theorems": [
    "C217_with_a_set",
    "C217_with_keys",
    "C217_set_is_set",
    "C217_keys_are_sets",
    "C217_quiet_domain",
    "C217_any_set",
    "C217_not_bytes"
   ],
   "note": "Proved, including the exact answers in plain mode with false positives of `in` (C54) and after failed calls."
  },
  {
   "property": "C218",
   "status": "partial",
   "theorems": [
    "C218_equal_keys_refuted"
   ],
   "note": "Refuted in plain mode for every p, p+x, p+y where x and y begin with different nibbles: {p, p+x} and {p, p+y} compare equal. True where `in` has no false positive, as in secure mode (C217_keys_are_sets)."
  },
  {
   "property": "C219",
   "status": "proved",
   "theorems": [
    "C219_every_schedule"
   ],
   "note": "Proved for the interpreter model of Threads.v: a step of a thread is one read or write of _root or of the storage dictionary."
  },
  {
   "property": "C220",
   "status": "proved",
   "theorems": [
    "C220_reads_rest_on_moments",
    "C220_undisturbed"
   ],
   "note": "Proved, with the exceptions named in the statement; they do occur (C225, C226)."
  },
  {
   "property": "C221",
   "status": "proved",
   "theorems": [
    "C221_one_writer",
    "C221_readers"
   ],
   "note": "Proved. Without the hypothesis of one writer updates are lost (C224)."
  },
  {
   "property": "C222",
   "status": "proved",
   "theorems": [
    "C222_alone"
   ],
   "note": "Proved."
  },
  {
   "property": "C223",
   "status": "proved",
   "theorems": [
    "C223_no_waiting"
   ],
   "note": "Proved."
  },
  {
   "property": "C224",
   "status": "partial",
   "theorems": [
    "C224_lost_update_refuted"
   ],
   "note": "Refuted: in every state of the trie two updates that both read the root before either assigns it leave the trie of the second one alone. True where updates are made one after the other (C221_one_writer); in general C219 says what is left."
  },
  {
   "property": "C225",
   "status": "partial",
   "theorems": [
    "C225_torn_get_refuted",
    "C225_torn_contains_refuted",
    "C225_no_such_answer"
   ],
   "note": "Refuted: get raises TypeError when the last key is deleted between its two reads of the root, contains raises KeyError when the first key is stored meanwhile; neither is an answer of a single moment (C225_no_such_answer). C220_reads_rest_on_moments lists all answers; C220_undisturbed says when the claim holds."
  },
  {
   "property": "C226",
   "status": "partial",
   "theorems": [
    "C226_mixed_proof_refuted",
    "C226_never_accepted"
   ],
   "note": "Refuted: the nodes are of one root, the root field of a later one, and no MPT accepts such a proof (C226_never_accepted). True where the root stays the same during the call (C220_undisturbed with C15)."
  },
  {
   "property": "C227",
   "status": "proved",
   "theorems": [
    "C227_decrypt_raises",
    "C227_message_or_not"
   ],
   "note": "Proved. As everywhere, RecursionError of json.loads on deeply nested texts and the limit on digits of integers are not modelled."
  },
  {
   "property": "C228",
   "status": "partial",
   "theorems": [
    "C228_refused_with_ValueError_refuted",
    "C228_malformed"
   ],
   "note": "Refuted: the empty object raises KeyError, a list or an entry that is no string TypeError. True: one of five exceptions, named in C228_malformed; exactly when which in C227."
  },
  {
   "property": "C229",
   "status": "proved",
   "theorems": [
    "C229_key_string_raises",
    "C229_key_file_raises"
   ],
   "note": "Proved."
  },
  {
   "property": "C230",
   "status": "proved",
   "theorems": [
    "C230_reads_rest_on_moments"
   ],
   "note": "Proved for the interpreter model of EThreads.v: a step of a thread is one access to the data dictionary, or one step of a call on the trie as in Threads.v."
  },
  {
   "property": "C231",
   "status": "proved",
   "theorems": [
    "C231_one_writer"
   ],
   "note": "Proved. Without the hypothesis of one writer updates are lost (C224) or crossed (C233)."
  },
  {
   "property": "C232",
   "status": "proved",
   "theorems": [
    "C232_settled",
    "C232_removed"
   ],
   "note": "Proved, in C232_settled and C232_removed. A read during a write of the same key can fail: C234."
  },
  {
   "property": "C233",
   "status": "partial",
   "theorems": [
    "C233_crossed_updates_refuted"
   ],
   "note": "Refuted: in every state two updates can cross so that the data is of one and the reference of the other; get then raises InvalidReferenceError until the next update. True where updates come one after the other (C231, C232)."
  },
  {
   "property": "C234",
   "status": "partial",
   "theorems": [
    "C234_torn_get_refuted"
   ],
   "note": "Refuted: data from before and reference from after the update make get raise InvalidReferenceError. C230 lists what a get can answer; C232 says when the claim holds."
  },
  {
   "property": "C235",
   "status": "proved",
   "theorems": [
    "C235_no_waiting"
   ],
   "note": "Proved."
  },
  {
   "property": "C236",
   "status": "proved",
   "theorems": [
    "C236_alone"
   ],
   "note": "Proved."
  },
  {
   "property": "C237",
   "status": "proved",
   "theorems": [
    "C237_refused",
    "C237_taken",
    "C237_one_text",
    "C237_sparse_refused",
    "C237_sparse_taken",
    "C237_get"
   ],
   "note": "Proved."
  },
  {
   "property": "C238",
   "status": "proved",
   "theorems": [
    "C238_bare_encode_exact"
   ],
   "note": "Proved."
  },
  {
   "property": "C239",
   "status": "proved",
   "theorems": [
    "C239_no_put_lost",
    "C239_short_calls"
   ],
   "note": "Proved for the small-step model of MtThreads.v."
  },
  {
   "property": "C240",
   "status": "proved",
   "theorems": [
    "C240_alone"
   ],
   "note": "Proved."
  },
  {
   "property": "C241",
   "status": "proved",
   "theorems": [
    "C241_in_turn"
   ],
   "note": "Proved."
  },
  {
   "property": "C242",
   "status": "proved",
   "theorems": [
    "C242_root_while_putting",
    "C242_root_quiet",
    "C242_root_always"
   ],
   "note": "Proved. That the root is over a prefix of the values is false: C243; with two calls that make the tree at once the claim is false: C244."
  },
  {
   "property": "C243",
   "status": "partial",
   "theorems": [
    "C243_prefix_refuted"
   ],
   "note": "Refuted: a value put after the length of an odd level was read and before its last leaf was read takes the place of that leaf. C242 says what the root is over."
  },
  {
   "property": "C244",
   "status": "partial",
   "theorems": [
    "C244_two_roots_refuted"
   ],
   "note": "Refuted: of two get_merkle_root on a tree not yet made one can answer the digest of the first two of three leaves. True where the calls come one after the other (C241, C242) or are not interrupted (C240)."
  },
  {
   "property": "C245",
   "status": "partial",
   "theorems": [
    "C245_made_again_refuted",
    "C245_other_root_refuted"
   ],
   "note": "Refuted: it can raise ValueError (C245_made_again_refuted), or answer the first leaf (C245_other_root_refuted). True where the calls come one after the other (C242)."
  },
  {
   "property": "C246",
   "status": "partial",
   "theorems": [
    "C246_ends_refuted"
   ],
   "note": "Refuted: other threads that call make_tree again and again can keep it from ending. Contrast C235. C250 is true: where the calls that make the tree come one after the other they end."
  },
  {
   "property": "C247",
   "status": "partial",
   "theorems": [
    "C247_proofs_after_refuted",
    "C247_mended"
   ],
   "note": "Refuted: two get_merkle_root can leave levels twice in the tree; get_proof_of_inclusion then gives a proof that verify_proof_of_inclusion rejects. C247_mended: a call of make_tree that is not interrupted mends the tree in every case."
  },
  {
   "property": "C248",
   "status": "proved",
   "theorems": [
    "C248_bytes_text",
    "C248_tuple_text",
    "C248_proof_repr",
    "C248_proof_str"
   ],
   "note": "Proved."
  },
  {
   "property": "C249",
   "status": "proved",
   "theorems": [
    "C249_time_text"
   ],
   "note": "Proved for fields within the width of their digits."
  },
  {
   "property": "C250",
   "status": "proved",
   "theorems": [
    "C250_ends"
   ],
   "note": "Proved. Without the hypothesis make_tree need not end: C246."
  },
  {
   "property": "C251",
   "status": "proved",
   "theorems": [
    "C251_exclusion_beside_others"
   ],
   "note": "Proved."
  },
  {
   "property": "C252",
   "status": "proved",
   "theorems": [
    "C252_steady_check",
    "C252_accepted_key",
    "C252_accepted_roots"
   ],
   "note": "Proved. The second part cannot say that the proof itself is one of a trie: C254."
  },
  {
   "property": "C253",
   "status": "partial",
   "theorems": [
    "C253_mixed_exclusion_refuted"
   ],
   "note": "Refuted: for every trie and every change between, there is a schedule after which the proof has the nodes of the old trie and the root of the new. C251 says what is true."
  },
  {
   "property": "C254",
   "status": "partial",
   "theorems": [
    "C254_mixed_check_refuted",
    "C254_never_accepted"
   ],
   "note": "Refuted: a proof of the new trie with the root node of the old one in front is accepted by some schedule (C254_mixed_check_refuted) and by no trie when the call is alone (C254_never_accepted). C252_accepted_key and C252_steady_check are true."
  },
  {
   "property": "C255",
   "status": "proved",
   "theorems": [
    "C255_others_unchanged",
    "C255_alone",
    "C255_bounded"
   ],
   "note": "Proved."
  },
  {
   "property": "C256",
   "status": "proved",
   "theorems": [
    "C256_objects_apart"
   ],
   "note": "Proved; with C219 to C226 this also says what several threads on one of the objects see."
  },
  {
   "property": "C257",
   "status": "proved",
   "theorems": [
    "C257_own_object"
   ],
   "note": "Proved."
  },
  {
   "property": "C258",
   "status": "proved",
   "theorems": [
    "C258_lives"
   ],
   "note": "Proved; extends C256 to objects made during the run."
  },
  {
   "property": "C259",
   "status": "proved",
   "theorems": [
    "C259_snapshot"
   ],
   "note": "Proved."
  },
  {
   "property": "C260",
   "status": "proved",
   "theorems": [
    "C260_old_roots"
   ],
   "note": "Proved."
  },
  {
   "property": "C261",
   "status": "proved",
   "theorems": [
    "C261_str",
    "C261_repr",
    "C261_str_apart",
    "C261_repr_apart"
   ],
   "note": "Proved; the text of a nickname is a parameter."
  },
  {
   "property": "C262",
   "status": "proved",
   "theorems": [
    "C262_copies_of_moments",
    "C262_steady"
   ],
   "note": "Proved: what copies made beside writes can be, exactly enough to say what reads of them answer."
  },
  {
   "property": "C263",
   "status": "partial",
   "theorems": [
    "C263_torn_sparse_trie_refuted"
   ],
   "note": "Refuted for every trie and every write that makes a new root node: get_sparse_trie copies the nodes and reads the root afterwards. What holds is C262."
  },
  {
   "property": "C264",
   "status": "partial",
   "theorems": [
    "C264_broken_sparse_trie_refuted"
   ],
   "note": "Refuted for every write that stores a node: the dict changes its size during the iteration. What holds is C262_steady."
  },
  {
   "property": "C265",
   "status": "proved",
   "theorems": [
    "C265_others_unchanged",
    "C265_alone",
    "C265_bounded"
   ],
   "note": "Proved."
  },
  {
   "property": "C266",
   "status": "proved",
   "theorems": [
    "C266_tallies",
    "C266_got_was_put"
   ],
   "note": "Proved, without assumptions on the hash."
  },
  {
   "property": "C267",
   "status": "proved",
   "theorems": [
    "C267_iterators"
   ],
   "note": "Proved, without assumptions on the hash."
  },
  {
   "property": "C268",
   "status": "partial",
   "theorems": [
    "C268_resized_refuted",
    "C268_update_refuted"
   ],
   "note": "Refuted from every state in which an iterator is under way. What holds is C267."
  },
  {
   "property": "C269",
   "status": "proved",
   "theorems": [
    "C269_others_unchanged",
    "C269_ends",
    "C269_len"
   ],
   "note": "Proved."
  },
  {
   "property": "C270",
   "status": "proved",
   "theorems": [
    "C270_only_calls",
    "C270_values_were_put",
    "C270_pops_counted",
    "C270_end",
    "C270_alone"
   ],
   "note": "Proved. Without assumptions on the hash, except that its values have 32 bytes for the number of steps."
  },
  {
   "property": "C271",
   "status": "partial",
   "theorems": [
    "C271_pop_in_one_step_refuted"
   ],
   "note": "Refuted from every state in which the two calls succeed alone. What holds is C270."
  },
  {
   "property": "C272",
   "status": "partial",
   "theorems": [
    "C272_setdefault_agrees_refuted"
   ],
   "note": "Refuted from every state in which the two updates succeed. What holds is C270."
  },
  {
   "property": "C273",
   "status": "proved",
   "theorems": [
    "C273_items_were_put",
    "C273_items_counted",
    "C273_only_calls",
    "C273_first_key",
    "C273_end",
    "C273_alone"
   ],
   "note": "Proved. Without assumptions on the hash, except that its values have 32 bytes for the number of steps and the call alone."
  },
  {
   "property": "C274",
   "status": "partial",
   "theorems": [
    "C274_popitem_returns_refuted"
   ],
   "note": "Refuted from every state, for every update with a new key; the KeyError is an example. What holds is C273."
  },
  {
   "property": "C275",
   "status": "proved",
   "theorems": [
    "C275_only_calls",
    "C275_items_counted",
    "C275_answer",
    "C275_alone"
   ],
   "note": "Proved. Without assumptions on the hash, except that its values have 32 bytes for the call alone."
  },
  {
   "property": "C276",
   "status": "partial",
   "theorems": [
    "C276_clear_clears_refuted"
   ],
   "note": "Refuted from every state with a key that delete can remove. What holds is C275."
  }
 ]
}
