(** The property theorems about path objects, texts of objects, time stamps and the small helpers (C91, C135-C144). *)
From Coq Require Import String List Bool Arith NArith ZArith Lia.
From Verif Require Import Base ProofObj NibblePathPy Json SpecJson ProofJson Keypairs Texts UtilsMisc Spec SpecCodec SpecRlp SpecPath SpecText Keccak KeccakProofs Examples KeysExamples
  PathPyProofs TextProofs TextProofs2 TextsExamples.
Import ListNotations.

(** C91: [next] without [iter] raises; after it come the five fields, then StopIteration for ever. *)
Theorem C91_next_without_iter : forall n, nexts n None = (repeat (Err AttributeError) n, None).
Proof. exact next_without_iter. Qed.
Print Assumptions C91_next_without_iter.
Theorem C91_next_after_iter : forall p n, fst (nexts (5 + n) (proof_iter p)) = map (fun x => Ok (Some x)) (proof_items p) ++ repeat (Ok None) n.
Proof. exact next_after_iter. Qed.
Print Assumptions C91_next_after_iter.

(** C135: the methods of a path, as functions of its nibbles; none of them raises. *)
Theorem C135_path_methods : forall p q leaf, in_range p -> in_range q ->
  py_len p = Ok (Z.of_nat (length (py_nibbles p))) /\
  (forall i, i < length (py_nibbles p) -> py_at p (Z.of_nat i) = Ok (nth i (py_nibbles p) 0)) /\
  (exists b, py_eq p q = Ok b /\ (b = true <-> py_nibbles p = py_nibbles q)) /\
  (exists b, py_starts_with p q = Ok b /\ (b = true <-> exists r, py_nibbles p = py_nibbles q ++ r)) /\
  (exists c, py_common_prefix p q = Ok c /\ in_range c /\ common_part (py_nibbles p) (py_nibbles q) (py_nibbles c)) /\
  (exists c, py_combine p q = Ok c /\ in_range c /\ py_nibbles c = py_nibbles p ++ py_nibbles q) /\
  (exists b, py_encode p leaf = Ok b /\ hex_prefix b (py_nibbles p) leaf).
Proof. exact path_functions. Qed.
Print Assumptions C135_path_methods.
Theorem C135_at_end : forall p i, in_range p -> (Z.of_nat (length (py_nibbles p)) <= i)%Z -> py_at p i = Err IndexError.
Proof. exact at_end. Qed.
Print Assumptions C135_at_end.
Theorem C135_decode : forall d, match d with
  | [] => py_decode_with_type d = Err IndexError
  | _ => exists p leaf, py_decode_with_type d = Ok (p, leaf) /\ in_range p /\ hex_read d (py_nibbles p) leaf
  end.
Proof. exact path_decode. Qed.
Print Assumptions C135_decode.
Theorem C135_consume : forall p k, in_range p -> 0 <= k <= length (py_nibbles p) ->
  in_range (py_consume p (Z.of_nat k)) /\ py_nibbles (py_consume p (Z.of_nat k)) = skipn k (py_nibbles p).
Proof. exact consume_in. Qed.
Print Assumptions C135_consume.
Example C135_example : in_range ex_p1 /\ in_range ex_p2 /\ py_nibbles ex_p1 = [2; 3; 4] /\ py_nibbles ex_p2 = [2; 3; 5; 6] /\
  py_common_prefix ex_p1 ex_p2 = Ok (mkPy [x23] true 0) /\ py_combine ex_p1 ex_p2 = Ok (mkPy [x02; x34; x23; x56] true 1) /\
  py_encode ex_p1 true = Ok [x32; x34] /\ py_eq ex_p1 ex_p2 = Ok false.
Proof. unfold in_range. cbn. repeat split; lia. Qed.

(** C136, refuted: [consume] of more than there is does not raise; afterwards every method does. *)
Theorem C136_consume_too_much_refuted : forall p k q leaf, in_range p -> (Z.of_nat (length (py_nibbles p)) < k)%Z ->
  let c := py_consume p k in py_len c = Err ValueError /\ py_eq c q = Err ValueError /\ py_eq q c = Err ValueError /\
  py_starts_with c q = Err ValueError /\ py_starts_with q c = Err ValueError /\ py_common_prefix c q = Err ValueError /\ py_common_prefix q c = Err ValueError /\
  py_combine c q = Err ValueError /\ py_combine q c = Err ValueError /\ py_encode c leaf = Err ValueError.
Proof. exact (fun p k q leaf P L => beyond_raises (py_consume p k) q leaf (over_consumed p k P L)). Qed.
Print Assumptions C136_consume_too_much_refuted.
Example C136_example : in_range ex_p1 /\ (Z.of_nat (length (py_nibbles ex_p1)) < 4)%Z /\ py_len (py_consume ex_p1 4) = Err ValueError.
Proof. unfold in_range. cbn. repeat split; lia. Qed.

(** C137, refuted: a negative offset puts the last nibbles in front, it does not leave them out. *)
Theorem C137_negative_offset_refuted : forall d l i, 0 < i <= length (nibbles d) -> let p := mkPy d l (- Z.of_nat i) in let x := skipn (length (nibbles d) - i) (nibbles d) ++ nibbles d in
  py_len p = Ok (Z.of_nat (length x)) /\ forall j, j < length x -> py_at p (Z.of_nat j) = Ok (nth j x 0).
Proof. exact negative_offset. Qed.
Print Assumptions C137_negative_offset_refuted.
Example C137_example : py_len (mkPy [x12; x34] false (-1)) = Ok 5%Z /\ map (py_at (mkPy [x12; x34] false (-1))) [0; 1; 2; 3; 4]%Z = map Ok [4; 1; 2; 3; 4].
Proof. split; reflexivity. Qed.

(** C138, refuted: what common_prefix and combine return has no text.  Paths made of bytes have one, and [repr] tells them apart. *)
Theorem C138_path_texts_refuted : forall p q c, py_common_prefix p q = Ok c \/ py_combine p q = Ok c -> py_repr c = Err AttributeError /\ py_str c = Err AttributeError.
Proof. exact no_repr. Qed.
Print Assumptions C138_path_texts_refuted.
Theorem C138_texts_of_bytes : forall p q, py_list p = false -> py_list q = false ->
  (exists s, py_repr p = Ok s) /\ (py_repr p = py_repr q <-> p = q) /\ (exists s, py_str p = Ok s) /\ (py_str p = py_str q <-> py_data p = py_data q).
Proof. exact repr_exact. Qed.
Print Assumptions C138_texts_of_bytes.
Example C138_example : py_repr ex_p1 = Ok (bs "<NibblePath: Data: 0x1234, Offset: 1>") /\ py_str ex_p1 = Ok (bs "<Hex 0x1234 | Raw b'\x124'>") /\
  py_common_prefix ex_p1 ex_p2 = Ok (mkPy [x23] true 0).
Proof. repeat split; vm_compute; reflexivity. Qed.

(** C139: the text of bytes is a literal of them, in printable ASCII, in double quotes only where this saves escapes;
    a literal has one value; the text of a proof is printable and tells proofs apart. *)
Theorem C139_bytes_repr : forall b, bytes_literal (bytes_repr b) b /\ Forall printable (bytes_repr b) /\ (nth 1 (bytes_repr b) x00 = x22 <-> In x27 b /\ ~ In x22 b).
Proof. exact repr_literal. Qed.
Print Assumptions C139_bytes_repr.
Theorem C139_literal_value : forall t b b', bytes_literal t b -> bytes_literal t b' -> b = b'.
Proof. exact literal_det. Qed.
Print Assumptions C139_literal_value.
Theorem C139_proof_repr : forall p q, (proof_repr p = proof_repr q <-> p = q) /\ Forall printable (proof_repr p).
Proof. exact (fun p q => conj (proof_repr_inj p q) (proof_repr_printable p)). Qed.
Print Assumptions C139_proof_repr.
Example C139_example : bytes_repr [x61; x00; x7f; x0a; x5c; x27] = bs "b""a\x00\x7f\n\\'""" /\ bytes_repr [x27; x22] = bs "b'\'""'" /\
  proof_repr (mkProof MT_POI (bs "t") (bs "k") (bs "r") [PB (bs "n")]) = bs "Proof(type=b'MT-POI', timestamp=b't', target_key=b'k', root_hash=b'r', proof=(b'n',))".
Proof. repeat split; vm_compute; reflexivity. Qed.

(** C140: the texts of a key pair depend on nothing but its class, nickname and public key; without keys there is no [repr]. *)
Theorem C140_key_pair_texts : forall (C : Crypto) str_of a b, kp_cls a = kp_cls b -> kp_nick a = kp_nick b ->
  kp_str str_of a = kp_str str_of b /\ (public_key a = public_key b -> kp_repr str_of a = kp_repr str_of b) /\
  (forall t, kp_repr str_of a = Ok t -> kp_repr str_of b = Ok t -> public_key a = public_key b).
Proof. exact (@kp_text_public). Qed.
Print Assumptions C140_key_pair_texts.
Theorem C140_no_keys : forall (C : Crypto) str_of a, kp_key a = None -> kp_repr str_of a = Err AttributeError.
Proof. exact (@kp_text_no_key). Qed.
Print Assumptions C140_no_keys.
Example C140_example : @kp_str toyc ex_str alice = txt "RsaKeyPair(nickname=alice)" /\ @kp_repr toyc ex_str alice = @kp_repr toyc ex_str alice_public /\
  match @kp_repr toyc ex_str alice with Ok t => 24 <? length t | Err _ => false end = true.
Proof. repeat split; vm_compute; reflexivity. Qed.

(** C141: keccak_hash_list is the hash of everything in a row.  Refuted that it tells lists apart; with the same lengths it does. *)
Theorem C141_hash_of_concatenation : forall (H : Hash) l hex, keccak_hash_list l hex = keccak_hash (concat l) hex.
Proof. exact (@hash_list_concat). Qed.
Print Assumptions C141_hash_of_concatenation.
Theorem C141_tells_lists_apart_refuted : forall (H : Hash) l1 a b l2 hex,
  keccak_hash_list (l1 ++ a :: b :: l2) hex = keccak_hash_list (l1 ++ (a ++ b) :: l2) hex /\ l1 ++ a :: b :: l2 <> l1 ++ (a ++ b) :: l2.
Proof. exact (fun H l1 a b l2 hex => conj (hash_list_merge l1 a b l2 hex) (merge_differs l1 a b l2)). Qed.
Print Assumptions C141_tells_lists_apart_refuted.
Theorem C141_same_lengths : forall (H : Hash) l m, no_collision [concat l; concat m] -> map (@length byte) l = map (@length byte) m ->
  keccak_hash_list l false = keccak_hash_list m false -> l = m.
Proof. exact (@hash_list_lengths). Qed.
Print Assumptions C141_same_lengths.
Example C141_example : @keccak_hash_list K [[x61]; [x62]] false = @keccak_hash_list K [[x61; x62]] false /\
  @no_collision K [concat [[x61]; [x62]]; concat [[x61]; [x63]]].
Proof. split; [reflexivity|]. apply no_collision_b_ok. vm_compute. reflexivity. Qed.

(** C142: file_exists and dir_exists ask for the place the operating system gives the name, except for names that start with ".//" *)
Theorem C142_file_exists : forall fs cwd name, hd dot cwd = slash -> (forall r, name <> dot :: slash :: slash :: r) ->
  exists_ (fun n => fs (place cwd n)) cwd name = fs (place cwd name).
Proof. exact exists_place. Qed.
Print Assumptions C142_file_exists.
Theorem C142_double_slash_refuted : forall is cwd r, exists_ is cwd (dot :: slash :: slash :: r) = is (slash :: r).
Proof. exact exists_double. Qed.
Print Assumptions C142_double_slash_refuted.
Example C142_example : ex_isfile (txt "./a/b") = true /\ ex_isfile (txt "a//b") = true /\ ex_isfile (txt "/w/./a/b") = true /\ ex_isfile (txt "./a/b/") = false /\
  ex_isfile (txt ".//a/b") = false /\ ex_fs (place (txt "/w") (txt ".//a/b")) = true.
Proof. repeat split; vm_compute; reflexivity. Qed.

(** C143: decode_json raises NotImplementedError exactly for objects with a proof whose type contains "MPT"; nothing but these exceptions. *)
Theorem C143_decode_json_errors : forall s e, proof_decode_json s = Err e -> In e json_errors /\
  (e = NotImplementedError <-> exists d l ty, json_text s (JObj d) /\ entry d (txt "proof") l /\ entry d (txt "proof_type") ty /\ contains (txt "MPT") ty).
Proof. exact decode_json_errors. Qed.
Print Assumptions C143_decode_json_errors.
Theorem C143_decode_json_mpt : forall s d l ty, json_text s (JObj d) -> entry d (txt "proof") l -> entry d (txt "proof_type") ty -> contains (txt "MPT") ty ->
  proof_decode_json s = Err NotImplementedError.
Proof. exact decode_json_mpt. Qed.
Print Assumptions C143_decode_json_mpt.
Example C143_example :
  map (fun s => proof_decode_json (txt s)) ["{""proof"":0,""proof_type"":""MPT-POI""}"; "{""proof"":0,""proof_type"":[1,""MPT""]}"; "{""proof"":0,""proof_type"":{""MPT"":0}}";
    "{""proof"":0,""proof_type"":[""MPT-POI""]}"; "{""proof_type"":""MPT""}"; "{""proof"":[],""proof_type"":""MT""}"]%string =
  [Err NotImplementedError; Err NotImplementedError; Err NotImplementedError; Err TypeError; Err KeyError; Err KeyError].
Proof. vm_compute. reflexivity. Qed.

(** C144: the time stamps of proofs are ordered as text as the moments are ordered. *)
Theorem C144_time_stamps : forall t u, valid_time t -> valid_time u -> (bytes_less (time_str t) (time_str u) <-> earlier t u) /\ (time_str t = time_str u <-> t = u).
Proof. exact time_order. Qed.
Print Assumptions C144_time_stamps.
Theorem C144_proofs_in_time : forall t u k r l ty k' r' l' ty' p q, valid_time t -> valid_time u -> new_proof_at t k r l ty = Ok p -> new_proof_at u k' r' l' ty' = Ok q ->
  (bytes_less (pf_time p) (pf_time q) <-> earlier t u) /\ (pf_time p = pf_time q <-> t = u).
Proof. exact proofs_in_time. Qed.
Print Assumptions C144_proofs_in_time.
Example C144_example : valid_time ex_t1 /\ valid_time ex_t2 /\ earlier ex_t1 ex_t2 /\ time_str ex_t1 = bs "2024-01-09 23:59:59" /\ time_str ex_t2 = bs "2024-01-09 23:59:59.000040".
Proof. split; [cbv; repeat split; reflexivity|]. split; [cbv; repeat split; reflexivity|]. split; [repeat (apply fl_same || apply fl_less); reflexivity|]. split; vm_compute; reflexivity. Qed.
