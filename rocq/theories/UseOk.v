(** Use trees are parsed to the tree they spell (C43). *)

From Coq Require Import String List NArith Arith Bool Lia.
From Verif Require Import Base Peresil Token Schema Value Nt Grammar Points Table Static Amb Sem First OutlineSpec Reads Syntax UseSpec.
Import ListNotations.
Local Open Scope string_scope.
Local Open Scope list_scope.
Local Open Scope nat_scope.

Fixpoint use_size (t : use_tree) : nat :=
  match t with Use _ tail => S (tail_size tail) end
with tail_size (t : use_tail) : nat :=
  match t with UseMulti ts _ => S (fold_right (fun t n => use_size t + n) 0 ts) | _ => 0 end.

Lemma in_size t ts c : In t ts -> use_size t < tail_size (UseMulti ts c).
Proof.
  cbn [tail_size]. induction ts as [|u ts IH]; [contradiction|]. cbn [In fold_right]. intros [->|I]; [lia|].
  specialize (IH I). cbn [tail_size] in IH. lia.
Qed.

Section Use.
  Variable toks : list token.

  (** What may not follow: it would continue the last segment. *)
  Definition use_follow : N := N.lor (bit KAs) (bit KDoubleColon).

  Lemma sem_path_members a e path p q s : Forall (fun w => member_kind (fst w) = true) path ->
    reads toks p (flat_map (fun w => [spell_word w; Sym KDoubleColon]) path) q ->
    sem toks a (GNT N_use_path_component) e q (SFail s) ->
    manys toks a (GNT N_use_path_component) e p q (map ident path).
  Proof.
    intros F RD SF. revert p RD. induction F as [|[k x] path K F IH]; intros p RD.
    - cbn in RD. subst q. eapply manys_nil; exact SF.
    - cbn [flat_map app] in RD. cbn [reads] in RD. destruct RD as (p1 & T1 & p2 & T2 & RD). cbn [map].
      eapply manys_cons; [|apply IH; exact RD].
      enter. seq; [eapply sem_member; [exact K|exact T1]|]. seq_sym T2. seq_done.
  Qed.

  Lemma ast_use_solid t : is_whitespace (ast_use t) = false.
  Proof. now destruct t. Qed.

  Theorem use_parsed : forall n t, use_size t <= n -> use_ok t -> forall a,
    parses toks a (GNT N_use_path) (clear toks use_follow) (spell_use t) (ast_use t).
  Proof.
    induction n as [|n IH]; intros [path tail] L OK a p q RD D; [cbn [use_size] in L; lia|].
    inversion OK as [path' tail' FP TO]; subst. cbn [spell_use] in RD. apply reads_app in RD as (r & R1 & R2).
    assert (exists v s, (forall e, sem toks a (GNT N_use_tail) e r (SOk q v)) /\ outline v = ast_tail tail
       /\ forall e, sem toks a (GNT N_use_path_component) e r (SFail s)) as (v & s & ST & IT & SF).
    { destruct tail as [[k x] ren| |ts c].
      - inversion TO as [n0 r0 K KR| |]; subst. cbn [fst] in K.
        assert (exists r1, takes toks r (Word k x) r1 /\ reads toks r1 (match ren with None => [] | Some w => [Sym KAs; spell_word w] end) q) as (r1 & T1 & R3).
        { destruct ren; cbn [spell_tail reads spell_word fst snd] in *; destruct R2 as (r1 & T1 & R3); exists r1; split; assumption. }
        assert (exists x0, forall e, sem toks a (GNT N_use_tail_ident) e r (SOk q (VNode "UseTailIdent" [VExt x0; ident (k, x); vopt_of ident ren; VList []]))) as [x0 HS].
        { eexists. intros e0. enter. seq_point. seq; [eapply sem_ident; [exact K|exact T1]|]. destruct ren as [[k2 x2]|].
          - cbn [reads] in R3. destruct R3 as (r2 & T2 & r3 & T3 & ->). seq; [|seq_done].
            apply sem_opt_some. enter. seq_sym T2. seq; [eapply sem_ident; [apply (KR (k2, x2) eq_refl)|exact T3]|]. seq_done.
          - cbn [reads] in R3. subst r1. seq; [opt_none D|]. seq_done. }
        eexists. exists r1. split; [|split].
        + intros e0. enter. apply sem_alt. apply alts_hit. seq; [apply HS|]. seq_done.
        + destruct ren; reflexivity.
        + intros e0. enter. seq; [eapply sem_member; [|exact T1]|].
          { unfold member_kind. now rewrite K. }
          apply sems_fail. destruct ren as [[k2 x2]|]; cbn [reads] in R3.
          * destruct R3 as (r2 & T2 & _). skip T2.
          * subst r1. stop D.
      - cbn [spell_tail reads] in R2. destruct R2 as (r1 & T1 & ->). eexists. exists r. split; [|split].
        + intros e0. enter. apply sem_alt. alts_past T1. apply alts_hit. seq; [|seq_done].
          enter. seq_point. seq_sym T1. seq_done.
        + reflexivity.
        + intros e0. skip T1.
      - inversion TO as [| |ts' c' OKS]; subst. cbn [spell_tail reads] in R2. destruct R2 as (r1 & T1 & R2).
        apply reads_app in R2 as (r2 & R2 & R3). cbn [reads] in R3. destruct R3 as (r3 & T3 & ->).
        destruct (sem_separated toks ast_use spell_use (fun _ => clear toks use_follow)
          (N.lor (firstg (GNT N_use_path)) (N.lor (bit KComma) use_follow)) KComma a (GNT N_use_path) ts c r1 r2)
          as (vs & HS & FV); [reflexivity|intros _; vm_compute; reflexivity|vm_compute; reflexivity| | |exact R2| |].
        { intros t I. split; [|apply ast_use_solid]. apply IH; [|now apply OKS]. pose proof (in_size t ts c I). cbn [use_size] in L. lia. }
        { apply spaced_uniform; vm_compute; reflexivity. }
        { eapply clear_takes; [exact T3|vm_compute; reflexivity]. }
        eexists. exists r. split; [|split].
        + intros e0. enter. apply sem_alt. alts_past T1. apply alts_last. seq; [|seq_done].
          enter. seq_point. seq_sym T1. seq; [apply HS|]. seq_sym T3. seq_done.
        + cbn [ast_tail node app]. outl.
        + intros e0. skip T1. }
    eexists. split.
    - intros e. enter. seq_point. seq.
      { apply sem_many. eapply sem_path_members; [exact FP|exact R1|apply SF]. }
      seq; [apply ST|]. seq_done.
    - cbn [ast_use node app]. outl.
  Qed.
End Use.
