*.vo
*.vos
*.vok
*.glob
.*.aux
*.aux
.lia.cache
.nra.cache
.nia.cache
.csdp.cache
.Makefile*
Makefile
Makefile.conf
