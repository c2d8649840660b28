(** Hash set: statements for the property file of the concurrent lookup. *)
From Coq Require Import Arith NArith List Bool Lia.
From Verif Require Import Lib Obs Hs_Model Hs_Spec HsConc_Model HsConc_Spec HsConc_Proof.
Import ListNotations.

Section T.
Variables (dl pp : bool) (hf : N -> N) (cmp : option (N -> N -> bool)) (ub : N -> N -> N) (oracle : nat -> option N).
Variable CT : contract pp hf cmp.
Lemma t_present : forall g n ls s a t v b, run (step dl pp hf cmp ub oracle) (cinit g n) ls = Some (s, a ++ ERet t v :: b) ->
  exists l, o_rd (gfold (onext cmp) a obs0) t = Some l /\
  (l_must l = true -> (l_sig l < 2 ^ 32)%N -> v <> 0%N /\ same cmp v (l_key l) = true).
Proof.
  intros g n ls s a t v b H. apply t_lookup in H; auto. apply legal_at in H. destruct H as (l & L & H). exists l. split; auto.
  intros M S. destruct (N.eqb_spec v 0) as [Z | Z].
  - destruct H as [H | H]; [congruence|]. exfalso. apply (N.lt_irrefl (l_sig l)). eapply N.lt_le_trans; eauto.
  - destruct H. auto.
Qed.
Lemma t_absent : forall g n ls s a t v b, run (step dl pp hf cmp ub oracle) (cinit g n) ls = Some (s, a ++ ERet t v :: b) ->
  exists l, o_rd (gfold (onext cmp) a obs0) t = Some l /\ (mem cmp (l_key l) (l_may l) = false -> v = 0%N).
Proof.
  intros g n ls s a t v b H. apply t_lookup in H; auto. apply legal_at in H. destruct H as (l & L & H). exists l. split; auto.
  intros M. destruct (N.eqb_spec v 0) as [Z | Z]; auto. exfalso. destruct H as (SV & IV).
  assert (X : mem cmp (l_key l) (l_may l) = true) by (unfold mem; apply existsb_exists; exists v; auto). congruence.
Qed.
End T.
