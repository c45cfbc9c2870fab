(** How large a storage gets. *)
From Coq Require Import List Bool Arith Lia.
From Verif Require Import Base BaseProofs Mpt Spec StoreProofs MptRefine MptProofs SpecCost CostProofs SpecShared.
Import ListNotations.

Section S.
Context {H : Hash}.
Hypothesis keccak_len : forall b, length (keccak b) = 32.

Lemma run_growth : forall h secure l t l2 t2, reachable secure l t -> ok_history secure h -> mpt_run t h = (l2, t2) -> no_collision (m_log t2) ->
  length (m_map t2) <= length (m_map t) + list_sum (map (may_write secure) h) /\
  length (m_log t2) <= length (m_log t) + list_sum (map (may_write secure) h).
Proof.
  induction h as [|c h IH]; intros secure l t l2 t2 R Hok E Hn.
  - injection E as <- <-. cbn. lia.
  - cbn [mpt_run] in E. destruct (mpt_call t c) as [r t1] eqn:Ec. destruct (mpt_run t1 h) as [l1 t2'] eqn:Er.
    assert (t2' = t2) by congruence. subst t2'. inversion Hok as [|? ? Hc Hh]; subst.
    destruct (reachable_repr keccak_len _ _ _ R) as (_ & tr & Rt & _).
    destruct (call_keeps keccak_len _ _ _ _ (repr_dinv _ _ Rt) Ec) as [D1 _].
    destruct (run_keeps keccak_len _ _ _ _ D1 Er) as [_ G].
    assert (N1 : no_collision (m_log t1)) by (eapply grows_nocoll; eauto).
    assert (R1 : reachable secure (l ++ match r with Ok _ => [c_op c] | Err _ => [] end) t1).
    { eapply (reachable_run secure l t [c]); eauto; [constructor; auto|]. cbn [mpt_run]. rewrite Ec. destruct r; reflexivity. }
    destruct (IH _ _ _ _ _ R1 Hh Er Hn) as [A B]. cbn [map list_sum fold_right]. fold (list_sum (map (may_write secure) h)).
    assert (X : length (m_map t1) <= length (m_map t) + may_write secure c /\ length (m_log t1) <= length (m_log t) + may_write secure c).
    { unfold mpt_call in Ec. unfold may_write. destruct (c_op c) as [k v|k].
      - destruct (update_cost keccak_len _ _ _ k v (c_lim c) R) as [_ X]. destruct (X _ _ _ Ec) as [X1 (w & X2 & ->)]. rewrite app_length. lia.
      - destruct (delete_cost keccak_len _ _ _ k (c_lim c) R) as [_ X]. destruct (X _ _ _ Ec) as [X1 (w & X2 & ->)]. rewrite app_length. lia. }
    lia.
Qed.

Theorem storage_growth : forall secure h l t, ok_history secure h -> mpt_run (mpt_new secure) h = (l, t) -> no_collision (m_log t) ->
  NoDup (dkeys (m_map t)) /\ length (m_map t) <= list_sum (map (may_write secure) h).
Proof.
  intros secure h l t Hok E Hn.
  destruct (run_keeps keccak_len _ _ _ _ (new_dinv secure) E) as [(_ & D & _) G]. split; [exact D|].
  assert (R0 : reachable secure [] (mpt_new secure)).
  { exists []. split; [reflexivity|]. split; [constructor|eapply grows_nocoll; eauto]. }
  destruct (run_growth h _ _ _ _ _ R0 Hok E Hn) as [A _]. exact A.
Qed.
End S.
