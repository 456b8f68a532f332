(** python/dp_accounting/dp_accounting/privacy_accountant.py 26-33 *)
Inductive relation := ADD_OR_REMOVE_ONE | REPLACE_ONE | REPLACE_SPECIAL.
Definition relation_eqb (a b : relation) : bool :=
  match a, b with
  | ADD_OR_REMOVE_ONE, ADD_OR_REMOVE_ONE | REPLACE_ONE, REPLACE_ONE
  | REPLACE_SPECIAL, REPLACE_SPECIAL => true
  | _, _ => false
  end.
