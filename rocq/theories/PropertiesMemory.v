(** * C133 - C138: who can see and who can change an array *)
From Coq Require Import Reals ZArith List String Bool Lia Lra.
From Flocq Require Import Core.Raux.
From Verif Require Import Base BaseFacts ExampleTools Preprocessing PreprocessingFacts Cepstral Features Extractors
  Pncc PropertiesPncc SpecMemory Memory MemoryClient MemoryThreads MemoryAlias.
Import ListNotations.

(** ** C133: a call leaves every array it is given as it was, and its results share memory with none *)
Theorem C133_pure : forall `{Env} h hs st act, Forall2 (shows h) hs st -> plain (List.length hs) act ->
  exists fresh, snd (exec (cstep hs act) h) = h ++ fresh /\
  match fst (exec (cstep hs act) h), vstep st act with
  | Ok hs', Ok st' => exists new, hs' = hs ++ new /\ Forall2 (shows (h ++ fresh)) hs' st' /\
                        Forall (fun hd => List.length h <= buf hd)%nat new /\ NoDup (map buf new)
  | Raise e, Raise e' => e = e'
  | _, _ => False
  end.
Proof. intros E h hs st act Hs Hp. exact (proj2 (call_pure h hs st act Hs Hp)). Qed.
Print Assumptions C133_pure.

(** the data of the examples: four samples, the signal and the reversed view signal[::-1] of them *)
Definition four : list F := [Fin 1; Fin 2; Fin 3; Fin 4].
Definition two_views : list handle := [H1 (mkA1 0 0 4 1); H1 (mkA1 0 3 4 (-1))].
Definition two_values : list value := [V1 four; V1 (rev four)].
Example two_views_show : Forall2 (shows [four]) two_views two_values.
Proof. repeat constructor. Qed.
Example C133_case : let _ := exact_env in
  Forall2 (shows [four]) two_views two_values /\ plain (List.length two_views) (APre 1 1) /\
  vstep two_values (APre 1 1) = Ok (two_values ++ [V1 [Fin 4; Fin (-1); Fin (-1); Fin (-1)]]).
Proof.
  split; [exact two_views_show|]. split; [exact I|]. cbn. unfold mapM, fsub, fadd, fneg, fmul. cbn.
  repeat f_equal; lra.
Qed.

(** ** C134: no call needs to write to an array it is given: read-only arrays do *)
Theorem C134_readonly : forall `{Env} h hs st act, Forall2 (shows h) hs st -> plain (List.length hs) act ->
  exec_readonly (List.length h) (cstep hs act) h = exec (cstep hs act) h.
Proof. intros E h hs st act Hs Hp. exact (proj1 (call_pure h hs st act Hs Hp)). Qed.
Print Assumptions C134_readonly.
(** an assignment by the caller does not go through *)
Example C134_case : let _ := exact_env in
  Forall2 (shows [four]) two_views two_values /\ plain (List.length two_views) (ALpcc 0 8 2 true 1 None (Some 3%R) None) /\
  fst (exec (cstep two_views (APut1 0 0 (Fin 9))) [four]) = Ok two_views /\
  fst (exec_readonly 1 (cstep two_views (APut1 0 0 (Fin 9))) [four]) = Raise ValueError.
Proof. split; [exact two_views_show|]. split; [cbn; lia|]. split; reflexivity. Qed.

(** ** C135: over any history of calls and assignments, arrays behave as values *)
Theorem C135_history : forall `{Env} h hs st acts, Forall2 (shows h) hs st -> Forall (plain (List.length hs)) acts ->
  exists hs' h', exec (crun hs acts) h = (Ok (fst (vrun st acts), hs'), h') /\ Forall2 (shows h') hs' (snd (vrun st acts)).
Proof.
  intros E h hs st acts Hs Hp. destruct (run_agrees _ _ acts _ _ _ (inv_start _ _ _ Hs) Hp) as (_ & hs' & h' & H1 & H2).
  exists hs', h'. split; auto. apply H2.
Qed.
Print Assumptions C135_history.
(** the result is overwritten, then computed again *)
Example C135_case : let _ := exact_env in
  let acts := [APre 0 1; APut1 2 0 (Fin 9); APut1 2 7 (Fin 9); APre 0 1] in
  Forall (plain (List.length two_views)) acts /\
  vrun two_values acts = ([Ok tt; Ok tt; Raise IndexError; Ok tt],
    two_values ++ [V1 [Fin 9; Fin 1; Fin 1; Fin 1]; V1 [Fin 1; Fin 1; Fin 1; Fin 1]]).
Proof.
  split; [repeat constructor; cbn; lia|]. cbn. repeat f_equal; lra.
Qed.

(** temporal_masking fills its result row by row; a caller overwrites it and calls again *)
Example C135_masking : let _ := exact_env in
  let m := [[Fin 10]; [Fin 1]] in
  let acts := [ANew2 [Fin 10] [[Fin 1]]; AMask 0 0.85 0.2; APut2 1 0 0 (Fin 7); AMask 0 0.85 0.2] in
  Forall (plain 0) acts /\ snd (vrun [] acts) = [V2 m; V2 [[Fin 7]; [Fin 2]]; V2 [[Fin 10]; [Fin 2]]].
Proof.
  split; [repeat constructor; cbn; lia|]. cbn [vrun vstep forallb List.length Nat.eqb andb app mat nth_error rbind].
  rewrite C69_example. cbn [rbind app vstep mat nth_error put firstn skipn nth Nat.ltb Nat.leb List.length andb]. rewrite C69_example. reflexivity.
Qed.

(** ** C136: threads that share arrays and only read them do not disturb each other, whatever the schedule *)
Theorem C136_threads : forall `{Env} h hs st (sessions : list (list action)), Forall2 (shows h) hs st ->
  Forall (Forall (plain (List.length hs))) sessions ->
  exists need : nat -> nat, forall ts,
  let M := schedule (mkP h (map (fun acts => (crun hs acts, [])) sessions)) ts in
  shared M = h /\ forall t acts, nth_error sessions t = Some acts ->
    (forall r own, nth_error (threads M) t = Some (Done r, own) ->
       exists hs', r = Ok (fst (vrun st acts), hs') /\ Forall2 (shows (h ++ own)) hs' (snd (vrun st acts))) /\
    ((need t <= count_occ Nat.eq_dec ts t)%nat -> exists r own, nth_error (threads M) t = Some (Done r, own)).
Proof. intros E h hs st sessions. exact (threads_agree h hs st sessions). Qed.
Print Assumptions C136_threads.
(** two threads on one signal, the second one on its reversed view *)
Example C136_case : let _ := exact_env in
  let sessions := [[APre 0 1; APut1 2 0 (Fin 9)]; [APre 1 1; APre 2 1]] in
  Forall2 (shows [four]) two_views two_values /\ Forall (Forall (plain (List.length two_views))) sessions /\
  map (fun acts => snd (vrun two_values acts)) sessions =
    [two_values ++ [V1 [Fin 9; Fin 1; Fin 1; Fin 1]];
     two_values ++ [V1 [Fin 4; Fin (-1); Fin (-1); Fin (-1)]; V1 [Fin 4; Fin (-5); Fin 0; Fin 0]]].
Proof.
  split; [exact two_views_show|]. split; [repeat constructor; cbn; lia|]. cbn. repeat f_equal; lra.
Qed.

(** ** C137: frames that overlap share their samples *)
Theorem C137_framing_alias : forall `{Env} h hs st k x fs wl wh fr L, Forall2 (shows h) hs st -> vec st k = Ok x ->
  framing x fs wl wh = Ok (fr, L) -> let hop := Ztrunc (rnd (wh * IZR fs)) in (0 <= hop)%Z ->
  exists v h1, exec (cstep hs (AFraming k fs wl wh)) h = (Ok (hs ++ [H2 v]), h1) /\
    Forall2 (shows h1) (hs ++ [H2 v]) (st ++ [V2 fr]) /\
    forall i j y, (i < List.length fr)%nat -> (j < List.length (nth i fr []))%nat ->
    exists h2 fr', exec (cstep (hs ++ [H2 v]) (APut2 (List.length hs) i j y)) h1 = (Ok (hs ++ [H2 v]), h2) /\
      Forall2 (shows h2) (hs ++ [H2 v]) (st ++ [V2 fr']) /\
      List.length fr' = List.length fr /\ forall i' j', (i' < List.length fr)%nat ->
        List.length (nth i' fr' []) = List.length (nth i' fr []) /\
        ((j' < List.length (nth i' fr []))%nat ->
         nth j' (nth i' fr' []) NaN = if (Z.of_nat i' * hop + Z.of_nat j' =? Z.of_nat i * hop + Z.of_nat j)%Z then y else nth j' (nth i' fr []) NaN).
Proof. intros E h hs st k x fs wl wh fr L. exact (framing_alias h hs st k x fs wl wh fr L). Qed.
Print Assumptions C137_framing_alias.
Example C137_case : let _ := exact_env in
  vec two_values 1 = Ok (rev four) /\ framing (rev four) 1 2 1 = Ok ([[Fin 4; Fin 3]; [Fin 3; Fin 2]; [Fin 2; Fin 1]], 2%Z) /\
  (0 <= Ztrunc (rnd (1 * IZR 1)))%Z.
Proof.
  cbv zeta. split; [reflexivity|]. split; [rewrite (framing_exact _ 1 2 1 2 1) by (lra || lia); reflexivity|].
  cbn. replace (1 * 1)%R with (IZR 1) by lra. rewrite Ztrunc_IZR. lia.
Qed.
Theorem C137_overlap_refuted : forall `{Env} x fs wl wh y, let L := Ztrunc (rnd (wl * IZR fs)) in let hop := Ztrunc (rnd (wh * IZR fs)) in
  (wh <= wl)%R -> (0 < hop < L)%Z -> (L + hop <= zlen x)%Z -> y <> nth (Z.to_nat hop) x NaN ->
  let acts := [ANew1 x; AFraming 0 fs wl wh; APut2 1 1 0 y] in
  ~ exists hs h, exec (crun [] acts) [] = (Ok (fst (vrun [] acts), hs), h) /\ Forall2 (shows h) hs (snd (vrun [] acts)).
Proof. intros E x fs wl wh y. exact (framing_overlap x fs wl wh y). Qed.
Print Assumptions C137_overlap_refuted.
Example C137_overlap_case : let _ := exact_env in
  (0 < Ztrunc (rnd (1 * IZR 1)) < Ztrunc (rnd (2 * IZR 1)))%Z /\
  (Ztrunc (rnd (2 * IZR 1)) + Ztrunc (rnd (1 * IZR 1)) <= zlen four)%Z /\ Fin 9 <> nth (Z.to_nat (Ztrunc (rnd (1 * IZR 1)))) four NaN.
Proof.
  cbn. replace (1 * 1)%R with (IZR 1) by lra. replace (2 * 1)%R with (IZR 2) by lra. rewrite !Ztrunc_IZR.
  split; [lia|]. split; [cbn; lia|]. cbn. intros H. inversion H. lra.
Qed.

(** ** C138: lifter_ceps returns its argument, not a copy, when it does not lift *)
Theorem C138_lifter_same : forall `{Env} h hs st k m l, Forall2 (shows h) hs st -> mat st k = Ok m -> (l = 0 \/ 10 < l)%R ->
  exists hd, nth_error hs k = Some hd /\ exec (cstep hs (ALifter k l)) h = (Ok (hs ++ [hd]), h).
Proof. intros E h hs st k m l. exact (lifter_same h hs st k m l). Qed.
Print Assumptions C138_lifter_same.
(** so that an assignment to the result changes the argument *)
Theorem C138_value_refuted : forall `{Env} row m l i j y, Forall (fun r => List.length r = List.length row) m -> (l = 0 \/ 10 < l)%R ->
  (i <= List.length m)%nat -> (j < List.length row)%nat ->
  let acts := [ANew2 row m; ALifter 0 l; APut2 1 i j y] in
  let changed := put (row :: m) i (put (nth i (row :: m) []) j y) in
  snd (vrun [] acts) = [V2 (row :: m); V2 changed] /\
  exists os hs h, exec (crun [] acts) [] = (Ok (os, hs), h) /\ os = [Ok tt; Ok tt; Ok tt] /\ Forall2 (shows h) hs [V2 changed; V2 changed].
Proof. intros E row m l i j y. exact (lifter_shares row m l i j y). Qed.
Print Assumptions C138_value_refuted.
Example C138_case : let changed := put [[Fin 1; Fin 2]; [Fin 3; Fin 4]] 1 (put [Fin 3; Fin 4] 0 (Fin 9)) in
  changed = [[Fin 1; Fin 2]; [Fin 9; Fin 4]] /\ changed <> [[Fin 1; Fin 2]; [Fin 3; Fin 4]] /\ (10 < 22)%R.
Proof. cbv zeta. split; [reflexivity|]. split; [|lra]. cbn. intros H. inversion H. lra. Qed.
