#!/bin/sh
# after a build: count what Print Assumptions reports over all theorems of the *Props*.v files
cd /verif/rocq/theories
{ for f in *Props*.v; do echo "From Verif Require ${f%.v}."; done
  for f in *Props*.v; do sed -n "s/^Theorem \([A-Za-z0-9_']*\).*/Print Assumptions ${f%.v}.\1./p" $f; done; } > /tmp/assum.v
coqc -w none -Q . Verif /tmp/assum.v 2>&1 | sort | uniq -c
