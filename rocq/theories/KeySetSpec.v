(** Specification: what Get must return after a history of Add/Del. *)
From Verif Require Import Base KeySetModel.

(** [current kid ops id k]: k was added under its id, and afterwards id was neither added again nor deleted. *)
Definition current {Key} (kid : Key -> string) (ops : list (ksop Key)) (id : string) (k : Key) : Prop :=
  exists before after, ops = before ++ KAdd k :: after /\ kid k = id /\
    (forall k', In (KAdd k') after -> kid k' <> id) /\ ~ In (KDel id) after.

Definition rcurrent {Key} (kid : Key -> string) (kidx : Key -> Z)
    (ops : list (rkop Key)) (id : string) (idx : Z) (k : Key) : Prop :=
  exists before after, ops = before ++ RAdd k :: after /\ kid k = id /\ kidx k = idx /\
    (forall k', In (RAdd k') after -> ~ (kid k' = id /\ kidx k' = idx)) /\ ~ In (RDel id idx) after.
