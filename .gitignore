*.vo
*.vos
*.vok
*.glob
*.aux
.*.aux
*.cache
Makefile
Makefile.conf
.Makefile.d
*.conf
.lia.cache
.nia.cache
