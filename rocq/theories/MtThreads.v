(** Calls on one MerkleTree object made by several threads (/repo/src/pymt/mt.py, /repo/src/pymt/merkletools.py).
    A step is one read or write of an attribute ([leaves], [levels], [is_ready]) or one operation on the list of leaves (append, len, index,
    item, slice); what is computed from local values belongs to the step before.  The lists above the leaves are never changed once they
    exist, and [self.leaves] is always the same list: [reset_tree] is not among the calls.  A list [self.levels] that a call has read is the
    list of the upper levels; its last entry is the list of leaves, as it is when it is looked at. *)
From Coq Require Import List Bool Arith NArith ZArith.
From Verif Require Import Base ProofObj MptEq MerkleTree.
Import ListNotations.

(** A call, and what it returns or raises.  [time] is the clock reading. *)
Inductive mtcmd :=
| QPut (v : pyval)
| QCount
| QLeaf (i : Z)
| QMake
| QRoot
| QPoi (time : bytes) (key : pyval)
| QVerify (p : proof).
Inductive mtout :=
| YUnit (r : result unit)
| YCount (n : nat)
| YBytes (r : result bytes)
| YProof (r : result proof)
| YBool (r : result bool).

(** What a call wants the root for. *)
Inductive want :=
| WRoot
| WProof (time key : bytes) (pr : list (bytes * bytes))
| WVerify (root : bytes).
(** What the caller of make_tree does next: make_tree was the call, or it goes on to the root. *)
Definition after := option want.

(** Where a call is. *)
Inductive mpc :=
| CDone (o : mtout)
| CPut (b : bytes)                                                 (* self.leaves.append *)
| CCount                                                           (* len(self.leaves) *)
| CLeaf (i : Z)                                                    (* self.leaves[index] *)
(* make_tree *)
| CBegin (a : after)                                               (* self.is_ready = False *)
| CAny (a : after)                                                 (* self.get_leaf_count() > 0 *)
| CBase (a : after)                                                (* self.levels = [self.leaves] *)
| CWhile (a : after)                                               (* while len(self.levels[0]) > 1: self.levels *)
| CWhile2 (a : after) (u : list (list bytes))                      (*   len *)
| CLen (a : after)                                                 (* N = len(self.levels[0]): self.levels *)
| CLen2 (a : after) (u : list (list bytes))                        (*   len *)
| CSolo (a : after) (n : nat)                                      (* solo_leave = self.levels[0][-1]: self.levels *)
| CSolo2 (a : after) (n : nat) (u : list (list bytes))             (*   [-1] *)
| CFst (a : after) (n : nat) (solo : list bytes)                   (* self.levels[0][0:N:2]: self.levels *)
| CFst2 (a : after) (n : nat) (solo : list bytes) (u : list (list bytes))
| CSnd (a : after) (n : nat) (solo ls : list bytes)                (* self.levels[0][1:N:2]: self.levels *)
| CSnd2 (a : after) (n : nat) (solo ls : list bytes) (u : list (list bytes))
| CPush (a : after) (new : list bytes)                             (* self.levels = [new_level] + self.levels: self.levels *)
| CPush2 (a : after) (new : list bytes) (u : list (list bytes))    (*   the assignment *)
| CEnd (a : after)                                                 (* self.is_ready = True *)
(* get_merkle_root *)
| CReady (w : want)                                                (* mt.py: if not self.is_ready *)
| CCheck (w : want)                                                (* merkletools.py: self.is_ready *)
| CCheck2 (w : want)                                               (*   self.levels is not None *)
| CTop (w : want)                                                  (* self.levels[0][0]: self.levels *)
| CTop2 (w : want) (u : list (list bytes))                         (*   [0][0] *)
(* get_proof_of_inclusion *)
| CIndex (time key : bytes)                                        (* self.leaves.index(key) *)
| CNone (time key : bytes) (i : nat)                               (* self.levels is None *)
| CGo (time key : bytes) (i : nat)                                 (* not self.is_ready *)
| CRange (time key : bytes) (i : nat)                              (* range(len(self.levels) - 1, 0, -1) *)
| CLevel (time key : bytes) (i x : nat) (pr : list (bytes * bytes))                                  (* len(self.levels[x]): self.levels[x] *)
| CLevel2 (time key : bytes) (i x : nat) (pr : list (bytes * bytes)) (l : option (list bytes))       (*   len *)
| CSib (time key : bytes) (i x : nat) (pr : list (bytes * bytes))                                    (* self.levels[x][sibling_index]: self.levels[x] *)
| CSib2 (time key : bytes) (i x : nat) (pr : list (bytes * bytes)) (l : option (list bytes)).        (*   [sibling_index] *)

(** The entry 0 of the levels a call has read. *)
Definition top_of (t : mt) (u : list (list bytes)) : list bytes := match u with l :: _ => l | [] => t_leaves t end.
(** The entry [x]; [Some None] is the list of leaves. *)
Definition entry (u : list (list bytes)) (x : nat) : option (option (list bytes)) := nth_error (map Some u ++ [None]) x.
Definition seen_list (t : mt) (l : option (list bytes)) : list bytes := match l with Some l => l | None => t_leaves t end.
Definition set_ready (t : mt) (b : bool) : mt := mkMt (t_leaves t) (t_upper t) b (t_secure t).
Definition set_upper (t : mt) (u : list (list bytes)) : mt := mkMt (t_leaves t) (Some u) (t_ready t) (t_secure t).

(** A call ends. *)
Definition told (w : want) (r : result bytes) : mtout :=
  match w with
  | WRoot => YBytes r
  | WProof time key pr => YProof (bind r (fun x => new_proof time key x (map (fun p => PPair (fst p) (snd p)) pr) MT_POI))
  | WVerify root => YBool (bind r (fun x => Ok (bytes_eqb x root)))
  end.
Definition failed (a : after) (e : exn) : mtout := match a with None => YUnit (Err e) | Some w => told w (Err e) end.
Definition next (a : after) : mpc := match a with None => CDone (YUnit (Ok tt)) | Some w => CCheck w end.
(** The loop of get_proof_of_inclusion comes to the level [x]; [pr] is reversed. *)
Definition loop (time key : bytes) (i x : nat) (pr : list (bytes * bytes)) : mpc :=
  match x with O => CReady (WProof time key (rev pr)) | _ => CLevel time key i x pr end.

Section WithHash.
Context {H : Hash}.

(** self.levels, for a subscript. *)
Definition with_levels (t : mt) (e : mtout) (f : list (list bytes) -> mpc) : mpc := match t_upper t with Some u => f u | None => CDone e end.

(** One step. *)
Definition mstep (t : mt) (p : mpc) : mt * mpc :=
  match p with
  | CDone o => (t, CDone o)
  (* merkletools.py:101-115 *)
  | CPut b => (mkMt (t_leaves t ++ [b]) (t_upper t) (t_ready t) (t_secure t), CDone (YUnit (Ok tt)))
  (* merkletools.py:131-133, 117-129 *)
  | CCount => (t, CDone (YCount (length (t_leaves t))))
  | CLeaf i => (t, CDone (YBytes (get_leaf t i)))
  (* merkletools.py:156-165 *)
  | CBegin a => (set_ready t false, CAny a)
  | CAny a => (t, if 0 <? length (t_leaves t) then CBase a else CEnd a)
  | CBase a => (set_upper t [], CWhile a)
  | CWhile a => (t, with_levels t (failed a TypeError) (CWhile2 a))
  | CWhile2 a u => (t, if 1 <? length (top_of t u) then CLen a else CEnd a)
  (* merkletools.py:139-154 *)
  | CLen a => (t, with_levels t (failed a TypeError) (CLen2 a))
  | CLen2 a u => let n := length (top_of t u) in (t, if Nat.odd n then CSolo a n else CFst a n [])
  | CSolo a n => (t, with_levels t (failed a TypeError) (CSolo2 a n))
  | CSolo2 a n u => (t, match rev (top_of t u) with [] => CDone (failed a IndexError) | x :: _ => CFst a (n - 1) [x] end)
  | CFst a n solo => (t, with_levels t (failed a TypeError) (CFst2 a n solo))
  | CFst2 a n solo u => (t, CSnd a n solo (every2 (firstn n (top_of t u))))
  | CSnd a n solo ls => (t, with_levels t (failed a TypeError) (CSnd2 a n solo ls))
  | CSnd2 a n solo ls u =>
      (t, CPush a (map (fun p => keccak (fst p ++ snd p)) (combine ls (every2 (skipn 1 (firstn n (top_of t u))))) ++ solo))
  | CPush a new => (t, with_levels t (failed a TypeError) (CPush2 a new))
  | CPush2 a new u => (set_upper t (new :: u), CWhile a)
  | CEnd a => (set_ready t true, next a)
  (* mt.py:90-95 *)
  | CReady w => (t, if t_ready t then CCheck w else CBegin (Some w))
  (* merkletools.py:167-177 *)
  | CCheck w => (t, if t_ready t then CCheck2 w else CDone (told w (Err ValueError)))
  | CCheck2 w => (t, match t_upper t with Some _ => CTop w | None => CDone (told w (Err ValueError)) end)
  | CTop w => (t, with_levels t (told w (Err TypeError)) (CTop2 w))
  | CTop2 w u => (t, CDone (told w (match top_of t u with x :: _ => Ok (to_hex x) | [] => Err IndexError end)))
  (* merkletools.py:179-219; the comparison of line 202 is of the index with the length of a list that has not become shorter *)
  | CIndex time key => (t, match index_of (stored (t_secure t) key) (t_leaves t) with Some i => CNone time key i | None => CDone (YProof (Err ValueError)) end)
  | CNone time key i => (t, match t_upper t with Some _ => CGo time key i | None => CDone (YProof (Err ValueError)) end)
  | CGo time key i => (t, if t_ready t then CRange time key i else CDone (YProof (Err ValueError)))
  | CRange time key i => (t, with_levels t (YProof (Err TypeError)) (fun u => loop time key i (length u) []))
  | CLevel time key i x pr => (t, with_levels t (YProof (Err TypeError)) (fun u =>
      match entry u x with Some l => CLevel2 time key i x pr l | None => CDone (YProof (Err IndexError)) end))
  | CLevel2 time key i x pr l =>
      let n := length (seen_list t l) in
      (t, if (i =? n - 1) && Nat.odd n then loop time key (i / 2) (x - 1) pr else CSib time key i x pr)
  | CSib time key i x pr => (t, with_levels t (YProof (Err TypeError)) (fun u =>
      match entry u x with Some l => CSib2 time key i x pr l | None => CDone (YProof (Err IndexError)) end))
  | CSib2 time key i x pr l =>
      (t, match nth_error (seen_list t l) (if Nat.odd i then i - 1 else i + 1) with
          | None => CDone (YProof (Err IndexError))
          | Some s => loop time key (i / 2) (x - 1) ((if Nat.odd i then s_left else s_right, to_hex s) :: pr)
          end)
  end.

(** A call begins: the checks of its arguments, and what mt.py:134-163 [verify_proof_of_inclusion] computes without the tree. *)
Definition mcall (secure : bool) (c : mtcmd) : mpc :=
  match c with
  | QPut (VBytes b) => CPut (stored secure b)
  | QPut VOther => CDone (YUnit (Err TypeError))
  | QCount => CCount
  | QLeaf i => CLeaf i
  | QMake => CBegin None
  | QRoot => CReady WRoot
  | QPoi _ VOther => CDone (YProof (Err TypeError))
  | QPoi time (VBytes k) => CIndex time k
  | QVerify p =>
      match mapM decode_elem (pf_proof p) with
      | Err e => CDone (YBool (Err e))
      | Ok str_proof =>
          match decode_str (pf_root p) with
          | Err e => CDone (YBool (Err e))
          | Ok s =>
              match from_hex s with
              | None => CDone (YBool (Err ValueError))
              | Some merkle_root =>
                  match tools_verify str_proof (pf_key p) merkle_root with
                  | Err e => CDone (YBool (if is_value_error e then Ok false else Err e))
                  | Ok false => CDone (YBool (Ok false))
                  | Ok true => CReady (WVerify (pf_root p))
                  end
              end
          end
      end
  end.

(** The object, and the calls made so far, each with the place it has come to. *)
Record mpool := mkMpool { y_obj : mt; y_calls : list mpc }.
Inductive mmove := QCall (c : mtcmd) | QGo (i : nat).
Definition mgo (w : mpool) (m : mmove) : mpool :=
  match m with
  | QCall c => mkMpool (y_obj w) (y_calls w ++ [mcall (t_secure (y_obj w)) c])
  | QGo i =>
      match nth_error (y_calls w) i with
      | None => w
      | Some p => let (t, p') := mstep (y_obj w) p in mkMpool t (firstn i (y_calls w) ++ p' :: skipn (S i) (y_calls w))
      end
  end.
Definition mrun (w : mpool) (ms : list mmove) : mpool := fold_left mgo ms w.
(** [MerkleTree(secure=secure)]. *)
Definition mpool_new (secure : bool) : mpool := mkMpool (mt_new secure) [].
Definition manswer (p : mpc) : option mtout := match p with CDone o => Some o | _ => None end.
Definition manswer_of (w : mpool) (i : nat) : option mtout := match nth_error (y_calls w) i with Some p => manswer p | None => None end.
End WithHash.
