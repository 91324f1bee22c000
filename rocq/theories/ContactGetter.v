(** Lemma: dofContact() on a registered contact. *)
From Verif Require Import ContactConstrSpec ContactConstrProofs.
Open Scope list_scope.
Lemma getter_lemma ops c outs : Forall noGet ops -> ccRun newCC ops = Ok (c, outs) -> forall id m, dofGiven id m ops -> dofContact c id = (c, m).
Proof.
  intros N H id m G. destruct (reg_run _ _ _ _ _ N regRel_empty H) as (g & R & SV & SD & HV & HD).
  destruct (regRun_trace _ _ _ id R) as (_ & B & _). apply B in G. rewrite <- HD in G. unfold dofContact. rewrite G. reflexivity.
Qed.
