(** Written texts (Written.v) consist of ASCII characters only. *)
From Verif Require Import Core CoreFacts Str StrFacts DecSpec Peg Parser ParserRead Written ParserWords ParserLits ParserWritten ParserRun.
From Coq Require Import Lia.
Import ListNotations.

Lemma key_ascii c : isKey c = true -> isAscii c.
Proof. destruct c as [[] [] [] [] [] [] [] []]; intros H; try discriminate H; reflexivity. Qed.
Lemma word_ascii c : isWord c = true -> isAscii c.
Proof. intros H. apply key_ascii. unfold isKey. now rewrite H. Qed.
Lemma gap_ascii g : gap g -> Forall isAscii g.
Proof. intros G. eapply Forall_impl; [|exact G]. intros c B. unfold blank in B. cbn in B. repeat destruct B as [<-|B]; try contradiction B; reflexivity. Qed.
Lemma space_ascii g : space g -> Forall isAscii g.
Proof. intros [G _]. now apply gap_ascii. Qed.
Lemma keytext_ascii k : Forall (fun c => isKey c = true) k -> Forall isAscii k.
Proof. intros F. eapply Forall_impl; [|exact F]. apply key_ascii. Qed.
Lemma name_ascii n : name n -> Forall isAscii n.
Proof. intros [_ F]. eapply Forall_impl; [|exact F]. apply word_ascii. Qed.
Lemma parts_ascii ps : Forall partOk ps -> Forall isAscii (List.concat (map partText ps)).
Proof.
  induction 1 as [|p ps O F IH]; [constructor|]. cbn [map List.concat]. apply Forall_app. split; [|assumption].
  destruct p as [k|dot n]; cbn in O |- *.
  - constructor; [reflexivity|]. now apply keytext_ascii, key_all.
  - apply Forall_app. split; [destruct dot; repeat constructor|]. unfold brackets. constructor; [reflexivity|].
    apply Forall_app. split; [now apply keytext_ascii, index_chars|repeat constructor].
Qed.
Lemma names_ascii l u : names l u -> Forall isAscii u.
Proof.
  induction 1 as [g n g' G N G'|g n g' l t G N G' H IH]; rewrite ?Forall_app; repeat split;
    auto using gap_ascii, name_ascii. constructor; [reflexivity|assumption].
Qed.
Lemma literal_ascii s z : literal s z -> Forall isAscii (chars s).
Proof.
  assert (D : forall c, isNum c = true -> isAscii c).
  { intros c H. apply word_ascii. unfold isWord. rewrite H. now rewrite orb_true_r. }
  intros [L|[r [y [-> [L _]]]]]; destruct (digits_of _ _ L) as [_ F].
  - eapply Forall_impl; [|exact F]. exact D.
  - constructor; [reflexivity|]. eapply Forall_impl; [|exact F]. exact D.
Qed.
Lemma option_ascii r k u : mergeOption r k u -> Forall isAscii u.
Proof.
  intros [|g G|g g' n G G' N]; [constructor|..];
    repeat first [now apply space_ascii | now apply name_ascii | apply Forall_nil | apply Forall_cons; [reflexivity|] | apply Forall_app; split].
Qed.
Lemma mergeRef_ascii p t : mergeRef p t -> Forall isAscii t.
Proof.
  intros [k ps K F _|k ps K F]; [|constructor; [reflexivity|]]; apply Forall_app; split; auto using parts_ascii;
    now apply keytext_ascii, key_all.
Qed.
Section A.
Variables path stubPath : list string.
Lemma fullMerge_ascii e t : fullMerge path stubPath e t -> Forall isAscii t.
Proof.
  intros [g G|r k u g p t' O G R Fr|r k u g O G];
    repeat first [now apply space_ascii | now apply (option_ascii r k) | now apply (mergeRef_ascii p) | apply Forall_nil | apply Forall_cons; [reflexivity|] | apply Forall_app; split].
Qed.
Lemma openMerge_ascii e t : openMerge path stubPath e t -> Forall isAscii t.
Proof. intros [r k u O]. apply Forall_app. split; [repeat constructor|now apply (option_ascii r k)]. Qed.
Lemma written_ascii o n e t : written path stubPath o n e t -> Forall isAscii t.
Proof.
  apply (written_i path stubPath (fun o n e t _ => Forall isAscii t) (fun e t _ => Forall isAscii t) (fun e t _ => Forall isAscii t)
    (fun l u _ => Forall isAscii u) (fun e u _ => Forall isAscii u) (fun l u _ => Forall isAscii u) (fun e u _ => Forall isAscii u)); intros;
    repeat match goal with
    | H : gap _ |- _ => apply gap_ascii in H
    | H : space _ |- _ => apply space_ascii in H
    | H : name _ |- _ => apply name_ascii in H
    | H : names _ _ |- _ => apply names_ascii in H
    | H : Forall partOk _ |- _ => apply parts_ascii in H
    | H : key _ |- _ => apply key_all, keytext_ascii in H
    | H : plainName _ |- _ => destruct H as [H _]
    | H : literal _ _ |- _ => apply literal_ascii in H
    | H : quoted _ _ |- _ => apply quoted_ascii in H
    | H : binop _ _ _ |- _ => destruct H; heads
    | H : aggregation _ _ _ |- _ => destruct H
    | H : fullMerge _ _ _ _ |- _ => apply fullMerge_ascii in H
    | H : openMerge _ _ _ _ |- _ => apply openMerge_ascii in H
    | dot : bool |- _ => destruct dot
    end; auto;
    repeat first [assumption | apply Forall_nil | apply Forall_cons; [reflexivity|] | apply Forall_app; split].
Qed.
Lemma marker_ascii m : marker m -> Forall isAscii m.
Proof. unfold marker. cbn. intros M. repeat destruct M as [<-|M]; try contradiction M; repeat constructor. Qed.
Lemma markers_ascii l u : markers l u -> Forall isAscii u.
Proof.
  intros [m l' t M N]. apply Forall_app. split; [now apply marker_ascii|].
  induction N as [|g k l2 t G K N IH]; [constructor|]. rewrite !Forall_app. repeat split; auto using space_ascii, marker_ascii.
Qed.
Lemma source_ascii e t : source path stubPath e t -> Forall isAscii t.
Proof.
  intros S. destruct S as [g e t g' G W G'|g g1 e t g' G G1 W G'|g l u g' G M G'|g l u g1 g2 e t g3 g' G M G1 G2 W G3 G'];
    try apply written_ascii in W; try apply markers_ascii in M;
    repeat first [assumption | now apply gap_ascii | now apply space_ascii | apply Forall_nil | apply Forall_cons; [reflexivity|] | apply Forall_app; split].
Qed.
End A.
