(** Texts that look like an address but are none: reading them raises ValueError. *)
From Coq Require Import String.
From Verif.Model Require Import Base Ip AddrText.
From Verif.Spec Require Import AddrSpec AddrTextSpec CafMeanSpec AclTextSpec GroupTextSpec.
From Verif.Spec Require CafTextSpec.
Local Open Scope list_scope.

(** Four numbers with dots, one of them with a superfluous zero in front. *)
Definition malformed4 (s : pystr) : Prop :=
  exists t r, s = t ++ r /\ CafTextSpec.addr4_text t r /\
    exists a d b, t = a ++ [48%N; d] ++ b /\ digit d /\ (a = [] \/ exists a', a = a' ++ [46%N]).
(** Digits, dots and colons that are no address. *)
Definition malformed6 (s : pystr) : Prop :=
  exists t r, s = t ++ r /\ CafTextSpec.addr6_text t r /\ ~ exists n, ipv6_text t n.
