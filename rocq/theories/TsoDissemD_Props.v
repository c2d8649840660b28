(** The dissemination barrier on x86-TSO publishes data (C92). *)
From Coq Require Import Arith NArith ZArith List Bool.
From Verif Require Import Lib BarSpec TsoBar_Spec BarDissem_Model TsoDissem_Model TsoDissemD_Model TsoDissemD_Proof.
Import ListNotations.

(** What a participant wrote before its call, another one reads after its own, although the two may
    never have signalled each other directly and no instruction waits for the store buffers: as long as
    accesses are ordered by the barrier every read returns the last value written. *)
Theorem dissem_tso_data : forall n M ls s log, (1 <= N.of_nat n <= 2 ^ 31)%N -> run (xstep n) (xinit M) ls = Some (s, log) ->
  data_legal M log.
Proof. intros n M ls s log Hn. exact (data_ok n Hn M ls s log). Qed.
Print Assumptions dissem_tso_data.

(** The accesses to data do not disturb the separation of episodes. *)
Theorem dissem_tso_data_separated : forall n M ls s log, (1 <= N.of_nat n <= 2 ^ 31)%N -> run (xstep n) (xinit M) ls = Some (s, log) ->
  separated n (bars log) /\ returns_after_all n (bars log).
Proof. intros n M ls s log Hn. exact (xsep n Hn M ls s log). Qed.
Print Assumptions dissem_tso_data_separated.

(** Four participants: 0 writes datum 5; 1 learns of it from 0 in round 0, 3 from 1 in round 1; 3 returns
    and reads the value while the flag that 0 stored in round 1 is still buffered. *)
Example dissem_tso_data_ex :
  match run (xstep 4) (xinit (fun _ => 0%Z))
    [XGo 0 ASub; XGo 1 ASub; XGo 2 ASub; XGo 3 ASub; XWr 0 5 7%Z; XGo 0 AEnter; XGo 1 AEnter; XGo 2 AEnter; XGo 3 AEnter;
     XGo 0 ATick; XGo 1 ATick; XGo 2 ATick; XGo 3 ATick; XGo 1 ATick; XFlush 0; XFlush 0; XFlush 1; XFlush 2; XFlush 3;
     XGo 0 ATick; XGo 1 ATick; XGo 2 ATick; XGo 3 ATick; XGo 0 ATick; XGo 1 ATick; XFlush 1; XGo 3 ATick;
     XGo 3 ATick; XGo 3 ATick; XRd 3 5] with
  | Some (s, log) => log = [DWr 0 5 7%Z; Bar (Enter 0); Bar (Enter 1); Bar (Enter 2); Bar (Enter 3); Bar (Leave 3); DRd 3 5 7%Z] /\
      xbuf s 0 = [Fl (E false 2 1 true)]
  | None => False
  end.
Proof. vm_compute. auto. Qed.
(** A read that is not ordered may miss the write. *)
Example dissem_tso_race_ex :
  match run (xstep 2) (xinit (fun _ => 0%Z)) [XGo 0 ASub; XGo 1 ASub; XWr 0 5 7%Z; XRd 1 5] with
  | Some (_, log) => log = [DWr 0 5 7%Z; DRd 1 5 0%Z]
  | None => False
  end.
Proof. vm_compute. auto. Qed.
