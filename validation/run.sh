cd /verif/rocq/theories; ulimit -s unlimited
for k in 0 1 2; do (coqtop -q -Q . Verif < /tmp/oracle/o$k.v > /tmp/oracle/o$k.out 2>&1) & done; wait
