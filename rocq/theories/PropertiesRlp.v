(** The property theorems about RLP and hex-prefix texts: exactly what is written and read. *)
From Coq Require Import String List Bool Arith NArith Lia.
From Verif Require Import Base BaseProofs Rlp Keccak NibblePath Node NodeSkeleton ProofObj Mpt Empt Spec SpecCodec SpecRlp Examples RlpExamples
  RlpExact DecodeExact SkeletonProofs Malleable.
Import ListNotations.

(** C125: rlp.encode and rlp.decode are the relation of the Yellow Paper, in both directions; each item has one text and each text one item. *)
Theorem C125_rlp_encode_exact : forall i b, (rlp_encode i = Ok b <-> rlp_form b i) /\ ((forall c, ~ rlp_form c i) <-> rlp_encode i = Err ValueError).
Proof. exact (fun i b => conj (encode_form b i) (encode_too_long i)). Qed.
Print Assumptions C125_rlp_encode_exact.
Theorem C125_rlp_decode_exact : forall b i, (rlp_decode b = Ok i <-> rlp_form b i) /\ ((forall j, ~ rlp_form b j) <-> rlp_decode b = Err DecodingError).
Proof. exact (fun b i => conj (decode_form b i) (decode_fails b)). Qed.
Print Assumptions C125_rlp_decode_exact.
Theorem C125_one_text_per_item : forall b c i j, rlp_form b i -> (rlp_form c i -> b = c) /\ (rlp_form b j -> i = j).
Proof. exact (fun b c i j F => conj (form_unique_text b c i F) (form_unique b i j F)). Qed.
Print Assumptions C125_one_text_per_item.

Example C125_example : rlp_form [xc8; x83; x63; x61; x74; x83; x64; x6f; x67] (IList [IBytes (bs "cat"); IBytes (bs "dog")]) /\
  rlp_decode [xc8; x83; x63; x61; x74; x83; x64; x6f; x67] = Ok (IList [IBytes (bs "cat"); IBytes (bs "dog")]) /\
  rlp_decode [x81; x05] = Err DecodingError /\ rlp_decode [xb8; x02; x61; x62] = Err DecodingError.
Proof.
  split; [|repeat split; vm_compute; reflexivity].
  apply rlp_list; [|cbn; lia|reflexivity]. apply (rlp_some [x83; x63; x61; x74]).
  - apply rlp_short; [discriminate|cbn; lia|reflexivity].
  - apply (rlp_some [x83; x64; x6f; x67] _ []); [|constructor]. apply rlp_short; [discriminate|cbn; lia|reflexivity].
Qed.

(** C126: the text of a path, of a node, and what is read as a node. *)
Theorem C126_path_encode_exact : forall p leaf b, np_encode p leaf = b <-> hex_prefix b (path_nibbles p) leaf.
Proof. exact encode_path_form. Qed.
Print Assumptions C126_path_encode_exact.
Theorem C126_path_decode_exact : forall h x leaf, (exists p, np_decode_with_type h = Ok (p, leaf) /\ path_nibbles p = x) <-> hex_read h x leaf.
Proof. exact decode_path_read. Qed.
Print Assumptions C126_path_decode_exact.
Theorem C126_node_encode_exact : forall n b, node_encode n = Ok b <-> node_write n b.
Proof. exact node_encode_exact. Qed.
Print Assumptions C126_node_encode_exact.
Theorem C126_node_decode_exact : forall b n, (exists n', node_decode b = Ok n' /\ same_node n n') <-> node_read b n.
Proof. exact node_decode_exact. Qed.
Print Assumptions C126_node_decode_exact.

Example C126_example : hex_prefix [x31; x23] [1; 2; 3] true /\ hex_read [xf1; x23] [1; 2; 3] true /\
  node_encode (Leaf (mkNp [x01; x23] 1) (bs "v")) = Ok [xc4; x82; x31; x23; x76] /\
  node_write (Leaf (mkNp [x01; x23] 1) (bs "v")) [xc4; x82; x31; x23; x76] /\ node_read [xc4; x82; x31; x23; x76] (Leaf (mkNp [x01; x23] 1) (bs "v")).
Proof.
  split; [exact (hp_odd x31 [x23] true 1 ltac:(lia) eq_refl)|]. split; [exact (hr_odd xf1 [x23] true 3 1 ltac:(lia) ltac:(lia) eq_refl)|].
  assert (E : node_encode (Leaf (mkNp [x01; x23] 1) (bs "v")) = Ok [xc4; x82; x31; x23; x76]) by (vm_compute; reflexivity).
  split; [exact E|]. split; [exact (proj1 (node_encode_exact _ _) E)|]. apply node_decode_exact. exists (Leaf (mkNp [x31; x23] 1) (bs "v")).
  split; [vm_compute; reflexivity|]. split; reflexivity.
Qed.

(** C127 is false of the code: every text of a leaf or extension has another one that is read as the same node (other upper bits in the
    flag byte), and so has every text of a branch with a nested node (the nested node as a string). *)
Theorem C127_one_text_per_node_refuted : forall b n, node_decode b = Ok n -> (forall rs v, n <> Branch rs v) -> (N.of_nat (length b) < 2 ^ 63)%N ->
  exists b' n', b' <> b /\ node_decode b' = Ok n' /\ same_node n n'.
Proof. exact other_text. Qed.
Print Assumptions C127_one_text_per_node_refuted.
Theorem C127_nested_as_string_refuted : forall b l1 k l2 rs v, rlp_form b (IList (l1 ++ IList k :: l2 ++ [IBytes v])) ->
  length (l1 ++ IList k :: l2) = 16 -> Forall2 ref_read (l1 ++ IList k :: l2) rs -> (N.of_nat (length b) < 2 ^ 63)%N ->
  exists b', b' <> b /\ node_read b (Branch rs v) /\ node_read b' (Branch rs v).
Proof. exact nested_as_string. Qed.
Print Assumptions C127_nested_as_string_refuted.

Example C127_example : match node_decode [xc4; x82; x31; x23; x76], node_decode [xc4; x82; xf1; x23; x76] with
  | Ok (Leaf p v), Ok (Leaf q w) => np_eq p q && bytes_eqb v w | _, _ => false end = true.
Proof. vm_compute. reflexivity. Qed.
Example C127_example_nested : match ex_nested (IList [IBytes [x20]; IBytes (bs "v")]), ex_nested (IBytes [xc2; x20; x76]) with
  | Ok b, Ok c => negb (bytes_eqb b c) && match node_decode b, node_decode c with
      | Ok (Branch rs v), Ok (Branch rs' v') => forallb (fun x => bytes_eqb (fst x) (snd x)) (combine rs rs') && bytes_eqb v v' | _, _ => false end
  | _, _ => false end = true.
Proof. vm_compute. reflexivity. Qed.

(** C128: exactly which bytes MPT.decode accepts, and what it then returns; SparseEMPT and RootEMPT read the same way. *)
Theorem C128_mpt_decode_exact : forall (H : Hash) b,
  (forall t, mpt_decode b = Ok t -> exists r l s, rlp_form b (IList [IBytes r; IList (map IBytes l); IBytes (flag_bytes s)]) /\ decoded t r l s) /\
  (forall r l s, rlp_form b (IList [IBytes r; IList (map IBytes l); IBytes (flag_bytes s)]) -> exists t, mpt_decode b = Ok t /\ decoded t r l s) /\
  ((forall i, ~ rlp_form b i) -> mpt_decode b = Err DecodingError) /\
  (forall i, rlp_form b i -> (forall r l s, i <> IList [IBytes r; IList (map IBytes l); IBytes (flag_bytes s)]) -> mpt_decode b = Err DeserializationError).
Proof. exact @mpt_decode_exact. Qed.
Print Assumptions C128_mpt_decode_exact.

Example C128_example : let H : Hash := toy in
  match mpt_encode (ex_trie true) with
  | Ok b => match mpt_decode b with Ok t => m_secure t && (length (m_map t) =? length (m_map (ex_trie true))) | _ => false end
  | _ => false end = true /\
  match mpt_decode [xc3; x80; xc0; x02] with Err DeserializationError => true | _ => false end = true /\
  match mpt_decode [xc3; x80; xc0; x00] with Err DeserializationError => true | _ => false end = true /\
  match mpt_decode [xc3; x80; xc0; x01] with Ok t => m_secure t | _ => false end = true.
Proof. vm_compute. repeat split; reflexivity. Qed.

(** C129: exactly which bytes DataReference.decode accepts: the checksum must be the shortest text of the digest of key and data. *)
Theorem C129_reference_decode_exact : forall (H : Hash) b r, ref_decode b = Ok r <->
  exists n, rlp_form b (IList [IBytes [x46; x46]; IBytes (r_key r); IBytes (r_data r); IBytes n]) /\ shortest n (base256 (keccak (r_key r ++ r_data r))).
Proof. exact @ref_decode_exact. Qed.
Print Assumptions C129_reference_decode_exact.

Example C129_example : let H : Hash := toy in
  match ref_encode (mkRef (bs "k") (bs "v")) with Ok b => match ref_decode b with Ok r => bytes_eqb (r_key r) (bs "k") && bytes_eqb (r_data r) (bs "v") | _ => false end | _ => false end = true.
Proof. vm_compute. reflexivity. Qed.

(** C130: exactly which bytes Proof.decode_rlp accepts. *)
Theorem C130_proof_decode_exact : forall b p, proof_decode_rlp b = Ok p <->
  exists els, rlp_form b (IList [IBytes (pf_type p); IBytes (pf_time p); IBytes (pf_key p); IBytes (pf_root p); IList (map IBytes els)]) /\
    In (pf_type p) [bs "MPT-POI"; bs "MPT-POE"; bs "MT-POI"] /\ pf_proof p = map PB els.
Proof. exact proof_decode_exact. Qed.
Print Assumptions C130_proof_decode_exact.

Example C130_example : let p := mkProof (bs "MT-POI") (bs "now") (bs "k") (bs "r") [PB (bs "a"); PB []] in
  match proof_encode_rlp p with Ok b => match proof_decode_rlp b with Ok q => bytes_eqb (pf_key q) (bs "k") && (length (pf_proof q) =? 2) | _ => false end | _ => false end = true /\
  match rlp_encode (IList [IBytes (bs "MPT"); IBytes []; IBytes []; IBytes []; IList []]) with
  | Ok b => match proof_decode_rlp b with Err TypeError => true | _ => false end | _ => false end = true.
Proof. vm_compute. split; reflexivity. Qed.

(** C131 is false of the code: in a proof with a leaf or an extension after the first node, this node can be replaced by other bytes,
    and verification gives the same result.  Only the first node is compared by its digest. *)
Theorem C131_proof_not_malleable_refuted : forall (H : Hash) lim t ty tm key root e pre b post n, node_decode b = Ok n ->
  (forall rs v, n <> Branch rs v) -> (N.of_nat (length b) < 2 ^ 63)%N ->
  exists b', b' <> b /\
    mpt_verify_poi lim t (mkProof ty tm key root (e :: pre ++ PB b' :: post)) = mpt_verify_poi lim t (mkProof ty tm key root (e :: pre ++ PB b :: post)) /\
    mpt_verify_poe lim t (mkProof ty tm key root (e :: pre ++ PB b' :: post)) = mpt_verify_poe lim t (mkProof ty tm key root (e :: pre ++ PB b :: post)).
Proof. exact @proof_other_bytes. Qed.
Print Assumptions C131_proof_not_malleable_refuted.
Theorem C131_only_readings_count : forall (H : Hash) lim t ty tm key root e l l', Forall2 (fun b b' => b = b' \/ same_reading b b') l l' ->
  mpt_verify_poi lim t (mkProof ty tm key root (e :: map PB l)) = mpt_verify_poi lim t (mkProof ty tm key root (e :: map PB l')) /\
  mpt_verify_poe lim t (mkProof ty tm key root (e :: map PB l)) = mpt_verify_poe lim t (mkProof ty tm key root (e :: map PB l')).
Proof. exact @readings_count. Qed.
Print Assumptions C131_only_readings_count.
Theorem C131_first_node_fixed : forall (H : Hash) lim t p, (mpt_verify_poi lim t p = Ok true \/ mpt_verify_poe lim t p = Ok true) ->
  exists b l, pf_proof p = PB b :: l /\ keccak b = root_hash t.
Proof. exact @first_node. Qed.
Print Assumptions C131_first_node_fixed.

Example C131_example : let H : Hash := toy in
  match mpt_get_poi 100 (bs "now") (ex_trie true) (bs "dog") with
  | Ok p => let q := mkProof (pf_type p) (pf_time p) (pf_key p) (pf_root p) (flip_last (pf_proof p)) in
      match mpt_verify_poi 100 (ex_trie true) p, mpt_verify_poi 100 (ex_trie true) q with
      | Ok a, Ok b => a && b && negb (match last (pf_proof p) (PB []), last (pf_proof q) (PB []) with PB x, PB y => bytes_eqb x y | _, _ => true end)
      | _, _ => false end
  | Err _ => false end = true.
Proof. vm_compute. reflexivity. Qed.

(** C132: exactly what Node.decode with include_data=False reads: the shape, with the marker as value. *)
Theorem C132_bare_decode_exact : forall b n, (exists n', node_decode_bare b = Ok n' /\ same_node n n') <-> shape_read b n.
Proof. exact bare_decode_exact. Qed.
Print Assumptions C132_bare_decode_exact.

Example C132_example : match node_decode_bare [xc4; x82; x31; x23; x76] with Ok (Leaf p v) => np_eq p (mkNp [x01; x23] 1) && bytes_eqb v (bs "1") | _ => false end = true /\
  match node_decode_bare [xc4; x82; x31; x23; xc0], node_decode [xc4; x82; x31; x23; xc0] with Ok (Leaf p v), Err TypeError => bytes_eqb v (bs "1") | _, _ => false end = true.
Proof. vm_compute. split; reflexivity. Qed.

(** C133 is false of the code: the marker is there whether the branch has a value or not. *)
Theorem C133_marker_means_value_refuted : forall b rs, node_decode b = Ok (Branch rs []) -> node_decode_bare b = Ok (Branch rs (bs "1")).
Proof. exact marker_always. Qed.
Print Assumptions C133_marker_means_value_refuted.

Example C133_example : match ex_nested (IBytes (bs "x")) with
  | Ok b => match node_decode b, node_decode_bare b with Ok (Branch _ []), Ok (Branch _ v) => bytes_eqb v (bs "1") | _, _ => false end | _ => false end = true.
Proof. vm_compute. reflexivity. Qed.

(** C134 is false of the code: nothing that encode(include_data=False) writes can be decoded, with data or without. *)
Theorem C134_bare_round_trip_refuted : forall n b, (forall rs v, n = Branch rs v -> length rs = 16) -> node_encode_bare n = Ok b ->
  node_decode b = Err AssertionError /\ node_decode_bare b = Err AssertionError.
Proof. exact bare_unreadable. Qed.
Print Assumptions C134_bare_round_trip_refuted.

Example C134_example : match node_encode_bare (Leaf (mkNp [x01; x23] 1) (bs "v")), node_encode_bare (Branch (repeat [] 16) []) with
  | Ok a, Ok b => match node_decode_bare a, node_decode b with Err AssertionError, Err AssertionError => true | _, _ => false end | _, _ => false end = true.
Proof. vm_compute. reflexivity. Qed.
