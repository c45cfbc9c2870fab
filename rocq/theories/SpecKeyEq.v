(** Kinds of nicknames that are not numbers. *)
From Verif Require Import Base Json.
Inductive nick_kind := KStr | KArr | KObj | KTrue | KFalse | KNull.
Definition kind_of (v : json) : option nick_kind :=
  match v with JStr _ => Some KStr | JArr _ => Some KArr | JObj _ => Some KObj | JTrue => Some KTrue | JFalse => Some KFalse | JNull => Some KNull | JNum _ => None end.
