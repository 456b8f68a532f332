(** python/dp_accounting/dp_accounting/pld/privacy_loss_mechanism.py 36-53 *)
Inductive adjacency := ADD | REMOVE.
