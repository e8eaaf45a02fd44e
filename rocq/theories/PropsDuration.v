(** * PropsDuration: the strings xsd:duration accepts (C40). *)
From Coq Require Import String.
From Verif Require Import Base Datatype Facets Spec DatatypeSpec DatatypeMain DurationSpec DurationProof.

(** ** C40: everything that begins with P, and everything that ends with a date and time *)
Theorem C40_duration_exact : forall O C ps d, compiles O C "duration" ps d -> exists q, Last_pattern ps q /\ forall s,
  fits O d s <-> ((exists r, s = 80%N :: r) \/ (exists a b, s = a ++ b /\ Moment (fun c => o_unicode_digit O c = true) b)) /\ pattern_holds O q s.
Proof. exact duration_exact. Qed.
Example C40_instance : exists d, forall O C, compiles O C "duration" [] d /\ fits O d (lit "P1Y") /\ fits O d (lit "Paris") /\ ~ fits O d (lit "1Y").
Proof.
  exists (DXsd (XDuration None)). intros O C. assert (HC : compiles O C "duration" [] (DXsd (XDuration None))) by reflexivity. split; [exact HC|].
  destruct (C40_duration_exact O C [] _ HC) as (q & Hq & K). assert (q = None) as -> by (inversion Hq as [| u v w E]; [reflexivity|]; destruct u; discriminate).
  split; [apply K; split; [left; eexists; reflexivity | exact I]|]. split; [apply K; split; [left; eexists; reflexivity | exact I]|]. intros H.
  apply K in H. destruct H as [[(r & H)|(a & b & E & (y & h1 & mo & h2 & da & ti & -> & Hy & _))] _]; [discriminate H|].
  apply (f_equal (@List.length N)) in E; destruct Hy as [Hy _]; rewrite !app_length, Hy in E; cbn in E; lia.
Qed.
(** an example of the second form, for digits as usual *)
Example C40_instance_moment : Moment (fun c => (48 <= c <= 57)%N) (lit "2024-02-29T23:59:60").
Proof.
  exists (lit "2024"), (lit "-"), (lit "02"), (lit "-"), (lit "29"), (lit "23:59:60"). split; [reflexivity|]. split; [split; [reflexivity|]; repeat constructor; discriminate|]. split; [right; reflexivity|].
  split; [left; exists 48%N, 50%N; repeat split; discriminate|]. split; [right; reflexivity|]. split; [left; exists 50%N, 57%N; repeat split; discriminate|].
  left. exists (lit "23"), (lit ":"), (lit "59"), (lit ":"), (lit "60"). split; [reflexivity|]. split; [right; exists 50%N, 51%N; repeat split; discriminate|]. split; [right; reflexivity|].
  split; [exists 53%N, 57%N; repeat split; discriminate|]. split; [right; reflexivity | right; reflexivity].
Qed.
Print Assumptions C40_duration_exact.
