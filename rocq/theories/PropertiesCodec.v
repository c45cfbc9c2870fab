(** Properties of the codecs: nibble paths, hex-prefix encoding, RLP, nodes.
    Vocabulary: SpecCodec.v.  Models: NibblePath.v, Rlp.v, Node.v. *)
From Coq Require Import String List Bool Arith NArith ZArith Lia.
From Verif Require Import Base BaseProofs Keccak Rlp RlpProofs NibblePath Node Mpt Spec SpecCodec Examples CodecProofs.
Import ListNotations.

(** C27: encoding a node loses nothing, and its reference identifies it. *)
Theorem C27_node_round_trip : forall n e, valid_node n -> node_encode n = Ok e ->
  exists n', node_decode e = Ok n' /\ same_node n n'.
Proof. exact node_round_trip. Qed.
Print Assumptions C27_node_round_trip.

Theorem C27_node_encoding_injective : forall a b e, valid_node a -> valid_node b ->
  node_encode a = Ok e -> node_encode b = Ok e -> same_node a b.
Proof. exact node_injective. Qed.
Print Assumptions C27_node_encoding_injective.

Theorem C27_reference_faithful : forall (H : Hash), (forall b, length (keccak b) = 32) ->
  forall a b ea eb r, valid_node a -> valid_node b ->
  node_encode a = Ok ea -> node_encode b = Ok eb -> no_collision [ea; eb] ->
  into_reference a = Ok r -> into_reference b = Ok r -> same_node a b.
Proof. exact @reference_faithful. Qed.
Print Assumptions C27_reference_faithful.

Theorem C27_references_are_valid : forall (H : Hash), (forall b, length (keccak b) = 32) ->
  forall n r, into_reference n = Ok r -> valid_ref r.
Proof. exact @into_reference_valid. Qed.
Print Assumptions C27_references_are_valid.

(** A branch with a hashed child, an inline leaf and a value. *)
Definition ex_inline : bytes := [xc2; x20; x76].
Definition ex_branch : node :=
  Branch (set_nth 3 (repeat x11 32) (set_nth 7 ex_inline (repeat [] 16))) (bs "value").
Example C27_applies : let H : Hash := toy in
  valid_node ex_branch /\ exists e r, node_encode ex_branch = Ok e /\ into_reference ex_branch = Ok r /\
    length r = 32 /\ no_collision [e; e].
Proof.
  intros H. split.
  - split; [reflexivity|]. repeat (constructor; [first [left; reflexivity | right; left; cbn; lia |
      right; right; split; [cbn; lia|eexists; vm_compute; reflexivity]]|]). constructor.
  - eexists. eexists. split; [vm_compute; reflexivity|]. split; [vm_compute; reflexivity|].
    split; [reflexivity|]. intros a b [<-|[<-|[]]] [<-|[<-|[]]] _; reflexivity.
Qed.

(** C28: path objects behave as sequences of nibbles. *)
Theorem C28_path_operations : forall p q,
  np_len p = length (path_nibbles p) /\
  (forall i, i < length (path_nibbles p) -> np_at_py p (Z.of_nat i) = Ok (nth i (path_nibbles p) 0)) /\
  (forall i, np_off p <= 2 * length (np_data p) -> length (path_nibbles p) <= i ->
     np_at_py p (Z.of_nat i) = Err IndexError) /\
  (np_eq p q = true <-> path_nibbles p = path_nibbles q) /\
  (np_starts_with p q = true <-> exists r, path_nibbles p = path_nibbles q ++ r) /\
  (forall n, path_nibbles (np_consume p n) = skipn n (path_nibbles p)) /\
  longest_common_prefix (path_nibbles p) (path_nibbles q) (path_nibbles (np_common_prefix p q)) /\
  path_nibbles (np_combine p q) = path_nibbles p ++ path_nibbles q.
Proof. exact path_ops. Qed.
Print Assumptions C28_path_operations.

Example C28_applies : let p := mkNp (bs "doge") 3 in let q := mkNp (bs "vo") 1 in
  path_nibbles p = [15; 6; 7; 6; 5] /\ path_nibbles q = [6; 6; 15] /\
  np_off p <= 2 * length (np_data p) /\ np_at_py p 7 = Err IndexError /\
  path_nibbles (np_combine p q) = [15; 6; 7; 6; 5; 6; 6; 15].
Proof. repeat split; vm_compute; try reflexivity. lia. Qed.

(** C29: the hex-prefix encoding keeps the nibbles and the node type. *)
Theorem C29_hex_prefix_round_trip : forall p leaf, exists p',
  np_decode_with_type (np_encode p leaf) = Ok (p', leaf) /\ path_nibbles p' = path_nibbles p.
Proof. exact hex_prefix_round_trip. Qed.
Print Assumptions C29_hex_prefix_round_trip.

Theorem C29_hex_prefix_injective : forall p q f g, np_encode p f = np_encode q g ->
  path_nibbles p = path_nibbles q /\ f = g.
Proof. exact hex_prefix_injective. Qed.
Print Assumptions C29_hex_prefix_injective.

Example C29_applies : np_encode (mkNp (bs "doge") 3) true = np_encode (mkNp [x6f; x67; x65] 1) true /\
  np_encode (mkNp (bs "doge") 3) true = [x3f; x67; x65] /\ np_encode (mkNp (bs "doge") 3) false = [x1f; x67; x65].
Proof. repeat split. Qed.

(** C30: RLP is lossless and canonical. *)
Theorem C30_rlp_decode_encode : forall i b, rlp_encode i = Ok b -> rlp_decode b = Ok i.
Proof. exact rlp_encode_decode. Qed.
Print Assumptions C30_rlp_decode_encode.

Theorem C30_rlp_encode_total : forall i, (N.of_nat (length (payload i)) < 2 ^ 64)%N -> exists b, rlp_encode i = Ok b.
Proof. exact rlp_encode_total. Qed.
Print Assumptions C30_rlp_encode_total.

Theorem C30_rlp_encode_decode : forall b i, rlp_decode b = Ok i -> rlp_encode i = Ok b.
Proof. exact rlp_decode_encode. Qed.
Print Assumptions C30_rlp_encode_decode.

Theorem C30_rlp_canonical : forall b1 b2 i, rlp_decode b1 = Ok i -> rlp_decode b2 = Ok i -> b1 = b2.
Proof. exact rlp_canonical. Qed.
Print Assumptions C30_rlp_canonical.

Example C30_applies :
  let i := IList [IBytes (bs "cat"); IList [IBytes []; IBytes [x7f]]; IBytes (repeat x00 60)] in
  exists b, rlp_encode i = Ok b /\ rlp_decode b = Ok i /\ length b = 71 /\
    rlp_decode [x81; x7f] = Err DecodingError.
Proof. eexists. split; [vm_compute; reflexivity|]. repeat split; vm_compute; reflexivity. Qed.
