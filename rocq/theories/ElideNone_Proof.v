(** Proofs about the elision wrappers without transactional memory. *)
From Coq Require Import ZArith Arith List Bool.
From Verif Require Import Lib Tso TsoLock_Spec TsoSpin_Model TsoSpin_Proof ElideNone_Model.
Import ListNotations.
Local Open Scope Z_scope.

Lemma none_bad : forall k, exists ls s log, run (step (ncode k) arr) (init (fun _ => 0)) ls = Some (s, log) /\
  pcs s 1%nat = CS /\ pcs s 2%nat = CS /\ ~ dl_legal (fun _ => 0) log.
Proof.
  intros k. exists [Go 1 (Base ALock); Go 1 (Base ATick); Go 2 ETry]%nat. do 2 eexists.
  split; [destruct k; vm_compute; reflexivity|]. split; [reflexivity|]. split; [reflexivity|]. intros [a H]. discriminate H.
Qed.
Lemma none_never : forall k D s t, reachable (step (ncode k) arr) (init D) s -> mem s (Reg 0) = 0 -> buf s t = [] ->
  forall s' e, step (ncode k) arr s (Go t ETry) = Some (s', e) -> e = [Fail t].
Proof.
  intros k D s t _ Hm Hb s' e H. cbn [step] in H. unfold ncode in H. destruct (pcs s t); try discriminate. unfold view in H.
  rewrite Hb in H. simpl in H. rewrite Hm in H. simpl in H. injection H as _ <-. auto.
Qed.

Definition back (l : lab nact) : list (lab act) :=
  match l with Go t (Base a) => [Go t a] | Go t ETry => [] | Flush t => [Flush t] end.
Lemma none_sim : forall k ls s s' log, (forall t, ~ In (Go t ETry) ls) -> run (step (ncode k) arr) s ls = Some (s', log) ->
  run (step (code k) arr) s (flat_map back ls) = Some (s', log).
Proof.
  induction ls as [|l ls IH]; intros s s' log Hn H; auto.
  cbn [run] in H. destruct (step (ncode k) arr s l) as [[s1 e1]|] eqn:E1; [|discriminate].
  destruct (run (step (ncode k) arr) s1 ls) as [[s2 e2]|] eqn:E2; [|discriminate]. injection H as <- <-.
  assert (K : run (step (code k) arr) s1 (flat_map back ls) = Some (s2, e2)) by (apply IH; auto; intros t Ht; apply (Hn t); right; auto).
  destruct l as [t [a|]|t].
  - cbn [flat_map back app]. eapply run_cons; [exact E1|exact K].
  - exfalso. apply (Hn t). left. auto.
  - cbn [flat_map back app]. eapply run_cons; [exact E1|exact K].
Qed.
Lemma none_good : forall k D ls s log, (forall t, ~ In (Go t ETry) ls) -> run (step (ncode k) arr) (init D) ls = Some (s, log) -> dl_legal D log.
Proof. intros k D ls s log Hn H. eapply spin_all. eapply none_sim; eauto. Qed.
