(** Lengths of inverses. *)
From Coq Require Import Reals.
From Verif Require Import Base BuilderModel CostSpec.
Local Open Scope nat_scope.

Lemma total_app l m : total (l ++ m) = total l + total m.
Proof. induction l as [|a l IH]; cbn; [reflexivity|]. unfold total in *. rewrite IH. lia. Qed.
Lemma total_rev l : total (rev l) = total l.
Proof. induction l as [|a l IH]; [reflexivity|]. cbn [rev]. rewrite total_app, IH. unfold total. cbn. lia. Qed.
Lemma inv_times_last k : total (seq 1 (S k)) = total (seq 1 k) + S k.
Proof. rewrite seq_S, total_app. cbn. lia. Qed.

Lemma invert_object_length k qs co cos : invert_circuit_object co = Ok cos ->
  total (map (inverse_objects k) (map (fun co => (qs, co)) cos)) = inverse_objects (S k) (qs, co).
Proof.
  unfold invert_circuit_object, inverse_objects. cbn [snd]. destruct (co_obj co) as [u|]; [|discriminate].
  assert (T : total (seq 1 (S k + 1)) = 1 + (k + 1) + total (seq 1 (k + 1))).
  { replace (S k + 1) with (S (k + 1)) by lia. rewrite inv_times_last. lia. }
  destruct u; cbn [bind map]; try (intros [= <-]; cbn [map snd co_obj total fold_right]; unfold total in *; lia).
  destruct (invert_data (co_n co) data) as [d|?|?]; cbn [bind map]; [|discriminate|discriminate]. intros [= <-]. reflexivity.
Qed.
Lemma invert_length k sc sc' : invert_subcircuit sc = Ok sc' -> total (map (inverse_objects k) sc') = total (map (inverse_objects (S k)) sc).
Proof.
  unfold invert_subcircuit. rewrite <- (total_rev (map (inverse_objects (S k)) sc)), <- map_rev. generalize (rev sc). clear sc. intros l.
  assert (G : forall acc, foldM (fun acc e => let '(indices, co) := e in bind (invert_circuit_object co) (fun cos => Ok (acc ++ map (fun co => (indices, co)) cos))) l acc = Ok sc' ->
    total (map (inverse_objects k) sc') = total (map (inverse_objects k) acc) + total (map (inverse_objects (S k)) l)).
  { induction l as [|[qs co] l IH]; intros acc E; cbn [foldM] in E; [injection E as <-; cbn; lia|].
    destruct (invert_circuit_object co) as [cos|?|?] eqn:Ec; cbn [bind] in E; [|discriminate|discriminate].
    rewrite (IH _ E), map_app, total_app, (invert_object_length k qs co cos Ec). cbn [map]. unfold total. cbn [fold_right]. lia. }
  intros E. rewrite (G [] E). reflexivity.
Qed.
Lemma inverse_objects_0 sc : total (map (inverse_objects 0) sc) = length sc.
Proof.
  induction sc as [|e sc IH]; [reflexivity|]. cbn [map length]. unfold total in *. cbn [fold_right]. rewrite IH.
  unfold inverse_objects. destruct (co_obj (snd e)) as [u|]; [|reflexivity]. destruct u; reflexivity.
Qed.
Lemma invert_times_length k : forall sc sc', invert_times k sc = Ok sc' -> length sc' = total (map (inverse_objects k) sc).
Proof.
  induction k as [|k IH]; intros sc sc' E; cbn [invert_times] in E; [injection E as <-; symmetry; apply inverse_objects_0|].
  destruct (invert_subcircuit sc) as [sc1|?|?] eqn:E1; cbn [bind] in E; [|discriminate|discriminate]. rewrite (IH _ _ E). apply invert_length. exact E1.
Qed.
