(** * Facts: the options lifter and normalize of the extractors *)
From Coq Require Import Reals ZArith List String Bool Lia Lra.
From Verif Require Import Base BaseFacts Preprocessing Cepstral CepstralFacts Features Extractors Pncc Cqt Lpc Rplp SpecOptions.
Import ListNotations.
Local Open Scope R_scope.

Lemma rbind_assoc : forall (A B C : Type) (m : result A) (f : A -> result B) (g : B -> result C),
  rbind (rbind m f) g = rbind m (fun a => rbind (f a) g).
Proof. intros A B C [a|e] f g; reflexivity. Qed.
Lemma rbind_ext : forall (A B : Type) (m : result A) (f g : A -> result B), (forall a, f a = g a) -> rbind m f = rbind m g.
Proof. intros A B [a|e] f g H; [apply H|reflexivity]. Qed.
Lemma finish_options : forall n t e l m nfft feats mag,
  finish (mkC n t e l m) nfft feats mag = rbind (finish (mkC n t e None None) nfft feats mag) (after l m).
Proof.
  intros n t e l m nfft feats mag. unfold finish, after. cbn [c_num_ceps c_dct_type c_use_energy c_lifter c_normalize].
  rewrite !rbind_assoc. apply rbind_ext. intros dm. cbv zeta. rewrite !rbind_assoc. apply rbind_ext. intros y. cbn [rbind].
  destruct l as [l|]; reflexivity.
Qed.
Lemma finish_plain : forall c nfft feats mag,
  finish c nfft feats mag = rbind (finish (plain_options c) nfft feats mag) (after (c_lifter c) (c_normalize c)).
Proof. intros [n t e l m] nfft feats mag. apply finish_options. Qed.
Ltac steps := repeat match goal with
    | |- rbind ?m _ = rbind (rbind ?m _) _ =>
        let v := fresh "v" in let w := fresh "w" in
        destruct m as [v|]; [cbn [rbind]; try destruct v as [v w]|reflexivity]
    end.
Lemma mfcc_options : forall (E : Env) sig a c,
  @mfcc E sig a c = rbind (@mfcc E sig a (plain_options c)) (after (c_lifter c) (c_normalize c)).
Proof.
  intros E sig a c. unfold mfcc. change (c_num_ceps (plain_options c)) with (c_num_ceps c).
  destruct (s_nfilts a <? c_num_ceps c)%Z; [reflexivity|]. steps. apply finish_plain.
Qed.
Theorem run_options : forall (E : Env) e sig a c,
  @run E e sig a c = rbind (@run E e sig a (plain_options c)) (after (c_lifter c) (c_normalize c)).
Proof.
  intros E e sig a c. destruct e; cbn [run]; unfold imfcc, lfcc, bfcc, gfcc, ngcc, msrcc;
    change (c_num_ceps (plain_options c)) with (c_num_ceps c);
    try (destruct (s_nfilts a <? c_num_ceps c)%Z; [reflexivity|]); steps;
    first [apply finish_plain|apply mfcc_options].
Qed.
Theorem psrcc_options : forall (E : Env) sig a g c,
  @psrcc E sig a g c = rbind (@psrcc E sig a g (plain_options c)) (after (c_lifter c) (c_normalize c)).
Proof.
  intros E sig a g c. unfold psrcc. change (c_num_ceps (plain_options c)) with (c_num_ceps c).
  destruct (s_nfilts a <? c_num_ceps c)%Z; [reflexivity|]. steps. apply finish_plain.
Qed.
Theorem pncc_options : forall (E : Env) sig a p c,
  @pncc E sig a p c = rbind (@pncc E sig a p (plain_options c)) (after (c_lifter c) (c_normalize c)).
Proof.
  intros E sig a p c. unfold pncc. change (c_num_ceps (plain_options c)) with (c_num_ceps c).
  destruct (s_nfilts a <? c_num_ceps c)%Z; [reflexivity|]. cbv zeta. steps. apply finish_options.
Qed.
Theorem cqcc_options : forall (E : Env) sig a r c,
  @cqcc E sig a r c = rbind (@cqcc E sig a r (plain_options c)) (after (c_lifter c) (c_normalize c)).
Proof. intros E sig a r c. unfold cqcc. cbv zeta. steps. apply finish_options. Qed.
Theorem lpcc_options : forall (E : Env) sig fs order pe co w l t,
  @lpcc E sig fs order pe co w l t = rbind (@lpcc E sig fs order pe co w None None) (after l t).
Proof.
  intros E sig fs order pe co w l t. unfold lpcc. cbv zeta. steps.
  destruct (order - 1 + 1 <? 0)%Z; [reflexivity|]. steps. destruct l as [l|]; reflexivity.
Qed.
Theorem rastaplp_options : forall (E : Env) sig a order ra l t,
  @rastaplp E sig a order ra l t = rbind (@rastaplp E sig a order ra None None) (after l t).
Proof.
  intros E sig a order ra l t. unfold rastaplp.
  destruct (s_nfilts a <? order)%Z; [reflexivity|]. steps.
  destruct (order <? 0)%Z; [reflexivity|]. steps. unfold after. destruct l as [l|]; [|reflexivity].
  unfold Reqb. destruct (Req_EM_T l 0) as [->|]; [|reflexivity]. rewrite lifter_id by auto. reflexivity.
Qed.
